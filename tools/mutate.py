#!/usr/bin/env python3
"""Mutation test of the theorems.  usage: mutate.py mutants.json [id ...]

Each mutant {"id", "file", "old", "new", "definition", "edit", "breaks", "expect"} is applied
to a scratch copy of rocq/ under /tmp/mut.  Lemmas whose proof no longer goes through are
replaced by an appeal to a scratch axiom, and at the end Print Assumptions tells which
theorems of MANIFEST.json depend on a replaced lemma (they "failed").  The rest still prove.
"""
import json, os, re, shutil, subprocess, sys
ROOT = os.path.dirname(os.path.dirname(os.path.abspath(__file__)))
SRC = os.path.join(ROOT, 'rocq')
BASE = '/tmp/mut/base'
HEAD = re.compile(r'^[ \t]*(?:Local |Global |#\[[^\]]*\] *)?(Lemma|Theorem|Example|Corollary|Remark|Fact|Proposition|Instance|Definition|Fixpoint)\s+([\w\']+)', re.M)
def sh(cmd, cwd, timeout=1500):
    try:
        r = subprocess.run(cmd, cwd=cwd, shell=True, capture_output=True, text=True, timeout=timeout)
        return r.returncode, r.stdout + r.stderr
    except subprocess.TimeoutExpired:
        return 124, 'TIMEOUT'
def files(d):
    return [l.strip() for l in open(os.path.join(d, '_CoqProject')) if l.strip().endswith('.v')]
def strip_print(s):
    return re.sub(r'^Print Assumptions.*\n', '', s, flags=re.M)
def baseline():
    """Compiled copy with the ADMIT axiom available, and the variables each proof uses."""
    shutil.rmtree(BASE, ignore_errors=True)
    os.makedirs(BASE + '/theories')
    shutil.copy(SRC + '/_CoqProject', BASE)
    using = {}
    fs = files(SRC)
    with open(BASE + '/theories/Scratch.v', 'w') as f:
        f.write('Axiom ADMIT : forall P : Prop, P.\n')
    assert sh('coqc -Q theories Verif theories/Scratch.v', BASE)[0] == 0
    for f in fs:
        s = strip_print(open(os.path.join(SRC, f)).read())
        open(os.path.join(BASE, f), 'w').write('From Verif Require Scratch.\n' + s)
    open(BASE + '/Makefile.list', 'w').write('\n'.join(fs))
    dep = open(BASE + '/_CoqProject').read().rstrip('\n') + '\ntheories/Scratch.v\n'
    open(BASE + '/_CoqProject', 'w').write(dep)
    for f in fs:
        c, o = sh("coqc -Q theories Verif -set 'Suggest Proof Using=yes' " + f, BASE)
        if c: print(f, o[-800:]); sys.exit(1)
        for m in re.finditer(r'The proof of ([\w\']+)\s+should start with one of the following commands:\s+(Proof using [^\n]*?)\.', o):
            using[(f, m.group(1))] = m.group(2)
    json.dump([[k[0], k[1], v] for k, v in using.items()], open(BASE + '/using.json', 'w'))
    deps = {}
    for f in fs:
        s = open(os.path.join(BASE, f)).read()
        mods = set()
        for m in re.finditer(r'From Verif Require (?:Import |Export )?\s*([^.]*)\.', s):
            mods |= set(m.group(1).split())
        deps[f] = ['theories/%s.v' % x for x in mods]
    json.dump(deps, open(BASE + '/deps.json', 'w'))
def patch(path, rel, line, using):
    """Replace the proof around the given line by the scratch axiom."""
    s = open(path).read()
    off = 0
    for _ in range(line - 1):
        off = s.index('\n', off) + 1
    eol = s.find('\n', off)
    heads = [m for m in HEAD.finditer(s) if m.start() < eol]
    if not heads: return None
    h = heads[-1]
    pm = re.compile(r'\bProof\b[^.]*\.').search(s, h.end())
    qm = re.compile(r'\b(Qed|Defined)\.').search(s, h.end())
    nxt = HEAD.search(s, h.end())
    if not pm or not qm: return None
    if off + 1 < pm.start() and s[off:pm.start()].count('\n') > 0: return None  # error in a statement
    if nxt and nxt.start() < pm.start(): return None
    u = using.get((rel, h.group(2)), 'Proof')
    if 'Scratch.ADMIT' in s[pm.start():qm.end()]: return None
    nl = s[pm.start():qm.end()].count('\n')
    s = s[:pm.start()] + u + '. exact (Scratch.ADMIT _). Qed.' + '\n' * nl + s[qm.end():]
    open(path, 'w').write(s)
    return h.group(2)
def run(mu):
    d = '/tmp/mut/' + mu['id']
    shutil.rmtree(d, ignore_errors=True)
    shutil.copytree(BASE, d)
    using = {(a, b): c for a, b, c in json.load(open(BASE + '/using.json'))}
    deps = json.load(open(BASE + '/deps.json'))
    rel = 'theories/' + mu['file']
    p = os.path.join(d, rel)
    s = open(p).read()
    if s.count(mu['old']) != 1:
        return {'id': mu['id'], 'error': 'old text occurs %d times' % s.count(mu['old'])}
    open(p, 'w').write(s.replace(mu['old'], mu['new']))
    dirty = {rel}; broken = []; dead = []
    for f in files(d):
        if f.endswith('Scratch.v'): continue
        if f in dirty or any(x in dirty for x in deps.get(f, [])):
            dirty.add(f)
        else: continue
        if any(x in dead for x in deps.get(f, [])):
            dead.append(f); continue
        while True:
            c, o = sh('timeout 900 coqc -Q theories Verif ' + f, d)
            if c == 0: break
            m = re.search(r'File "\./%s", line (\d+)' % re.escape(f), o)
            n = patch(os.path.join(d, f), f, int(m.group(1)), using) if m else None
            if n is None:
                dead.append(f)
                broken.append(f + ': ' + o.strip()[-300:])
                break
            broken.append(n)
    man = json.load(open(os.path.join(ROOT, 'MANIFEST.json')))
    ths = sorted({t for c in man['claims'] for t in c['theorems']})
    where = {}
    for f in files(d):
        s = open(os.path.join(d, f)).read()
        for m in HEAD.finditer(s):
            where.setdefault(m.group(2), f)
    failed, kept = [], []
    live = [t for t in ths if where.get(t) not in dead]
    failed += [t for t in ths if where.get(t) in dead]
    chk = [t for t in live if where.get(t) in dirty]
    out = ['From Verif Require Scratch.'] + ['From Verif Require Import %s.' % os.path.basename(f)[:-2] for f in sorted({where[t] for t in chk})]
    for t in chk:
        out.append('Print Assumptions Verif.%s.%s.' % (os.path.basename(where[t])[:-2], t))
    res = {}
    if chk:
        open(d + '/theories/ZCheck.v', 'w').write('\n'.join(out) + '\n')
        c, o = sh('coqc -Q theories Verif theories/ZCheck.v', d)
        if c: return {'id': mu['id'], 'error': o[-500:], 'broken': broken}
        parts = re.split(r'^(?=Axioms:|Closed under)', o, flags=re.M)
        parts = [x for x in parts if x.strip()]
        assert len(parts) == len(chk), (len(parts), len(chk))
        for t, x in zip(chk, parts):
            (failed if 'ADMIT' in x else kept).append(t)
    r = {'id': mu['id'], 'failed': failed, 'still_prove': kept, 'broken_lemmas': broken}
    shutil.rmtree(d, ignore_errors=True)
    return r
if __name__ == '__main__':
    if sys.argv[1] == 'base':
        baseline(); sys.exit()
    mus = json.load(open(sys.argv[1]))
    sel = sys.argv[2:]
    mus = [m for m in mus if not sel or m['id'] in sel]
    from concurrent.futures import ThreadPoolExecutor
    with ThreadPoolExecutor(3) as ex:
        for r in ex.map(run, mus):
            print(json.dumps(r), flush=True)
