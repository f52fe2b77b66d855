#!/usr/bin/env python3
"""Rebuild a scratch copy of the development with one edited definition and report
which property theorems no longer hold.

A proof that fails is replaced by Admitted in the scratch copy so that the build
goes on; a property theorem counts as failed when it is itself admitted or when
Print Assumptions shows that it rests on an admitted lemma.

usage: mutate.py MUTANTS.json OUT.jsonl [worker-dir]
"""
import json, os, re, shutil, subprocess, sys
SRC = '/verif/rocq/theories'
def coqc(d, f, t=600):
    try:
        return subprocess.run(['timeout', str(t), 'coqc', '-w', 'none', '-Q', '.', 'Verif', f], cwd=d, capture_output=True, text=True)
    except Exception as e:
        return None
def deps(d):
    files = sorted(x for x in os.listdir(d) if x.endswith('.v'))
    out = subprocess.run(['coqdep', '-Q', '.', 'Verif'] + files, cwd=d, capture_output=True, text=True).stdout
    dep = {f: set() for f in files}
    for line in out.splitlines():
        if ':' not in line: continue
        l, r = line.split(':', 1)
        m = re.match(r'(\S+)\.vo\b', l)
        if m and m.group(1) + '.v' in dep:
            dep[m.group(1) + '.v'] |= {x[:-1] for x in r.split() if x.endswith('.vo') and x[:-1] in dep and x[:-1] != m.group(1) + '.v'}
    return dep
def order(dep):
    done, res = set(), []
    def go(f):
        if f in done: return
        done.add(f)
        for g in sorted(dep[f]): go(g)
        res.append(f)
    for f in sorted(dep): go(f)
    return res
START = re.compile(r'^\s*(Lemma|Theorem|Corollary|Example|Fact|Remark)\s+(\w+)')
def patch(d, f, line):
    """Admit the proof around [line] (1-based); returns the name or None."""
    L = open(f'{d}/{f}').read().split('\n')
    i = line - 1
    s = i
    while s >= 0 and not START.match(L[s]): s -= 1
    if s < 0: return None
    name = START.match(L[s]).group(2)
    e = s
    while e < len(L) and not re.search(r'\b(Qed|Defined)\.\s*$', L[e].split('(*')[0].rstrip()) : e += 1
    if e < i or e >= len(L): return None
    text = '\n'.join(L[s:e+1])
    m = re.search(r'\bProof\b', text)
    if not m: return None
    # error inside the statement?
    if text[:m.start()].count('\n') + s > i: return ('STATEMENT', name)
    new = text[:m.start()] + 'Admitted. (* was proof *)'
    pad = text.count('\n') - new.count('\n')
    L[s:e+1] = (new + '\n' * pad).split('\n')
    open(f'{d}/{f}', 'w').write('\n'.join(L))
    return name
def run(mut, d):
    if os.path.exists(d): shutil.rmtree(d)
    shutil.copytree(SRC, d)
    for f in os.listdir(d):
        if f.startswith('Prop_') and f.endswith('.v'):
            t = open(f'{d}/{f}').read()
            open(f'{d}/{f}', 'w').write(re.sub(r'^Print Assumptions.*$', '', t, flags=re.M))
    p = f"{d}/{mut['file']}.v"
    s = open(p).read()
    assert s.count(mut['old']) == 1, (mut['id'], s.count(mut['old']))
    open(p, 'w').write(s.replace(mut['old'], mut['new']))
    dep = deps(d); od = order(dep)
    dirty = {mut['file'] + '.v'}
    for f in od:
        if dep[f] & dirty: dirty.add(f)
    admitted, broken, notes = [], set(), []
    for f in od:
        if f not in dirty: continue
        if dep[f] & broken: broken.add(f); continue
        for _ in range(80):
            r = coqc(d, f)
            if r.returncode == 0: break
            m = re.search(r'line (\d+), characters', r.stderr)
            if not m: broken.add(f); notes.append((f, r.stderr[-300:])); break
            got = patch(d, f, int(m.group(1)))
            if got is None or isinstance(got, tuple):
                broken.add(f); notes.append((f, str(got), r.stderr[:400])); break
            admitted.append(f'{f[:-2]}.{got}')
    failed = []
    graph = {}
    for f in od:
        for m in re.finditer(r'^\s*(?:Lemma|Theorem|Corollary|Example|Fact|Remark|Definition|Fixpoint|Let)\s+(\w+)(.*?)(?=^\s*(?:Lemma|Theorem|Corollary|Example|Fact|Remark|Definition|Fixpoint|Let)\s|\Z)',
                             open(f'{SRC}/{f}').read(), re.M | re.S):
            graph.setdefault(m.group(1), set()).update(re.findall(r"[A-Za-z_][\w']*", m.group(2)))
    short = {a.split('.')[1] for a in admitted}
    def reaches(n):
        seen, todo = {n}, [n]
        while todo:
            x = todo.pop()
            if x in short: return True
            for y in graph.get(x, ()):
                if y in graph and y not in seen: seen.add(y); todo.append(y)
        return False
    for f in od:
        if not f.startswith('Prop_') or f not in dirty: continue
        names = [m.group(1) for m in re.finditer(r'^Theorem (\w+)', open(f'{d}/{f}').read(), re.M)]
        if f in broken: failed += [n + ' (file does not build)' for n in names]; continue
        names = [n for n in names if reaches(n)]
        if not names: continue
        q = f'From Verif Require Import {f[:-2]}.\n' + ''.join(f'Print Assumptions {n}.\n' for n in names)
        open(f'{d}/Zq.v', 'w').write(q)
        r = coqc(d, 'Zq.v')
        parts = re.split(r'(?=^(?:Axioms:|Closed under))', r.stdout, flags=re.M)[1:]
        for n, b in zip(names, parts):
            ax = set(x.split('.')[-1] for x in re.findall(r'^([\w.]+)\s*$|^([\w.]+) ?:', b, re.M) for x in x if x)
            if ax & short: failed.append(n)
    return dict(mut, admitted=admitted, failed=failed, broken=sorted(broken), notes=notes)
if __name__ == '__main__':
    muts = json.load(open(sys.argv[1])); out = sys.argv[2]; d = sys.argv[3] if len(sys.argv) > 3 else '/tmp/mut'
    for m in muts:
        try: r = run(m, d)
        except Exception as e: r = dict(m, error=repr(e))
        open(out, 'a').write(json.dumps(r) + '\n')
        print(m['id'], 'failed:', len(r.get('failed', [])), r.get('admitted', [])[:4], r.get('notes', '')[:1] if r.get('notes') else '', r.get('error', ''), flush=True)
