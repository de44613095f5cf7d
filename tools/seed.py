#!/usr/bin/env python3
"""Seeded-bug test.  Reads edits (JSON list of {file, def, old, new, claim, edit}) and for each:
copies rocq/ to a scratch directory, applies the edit to the model, rebuilds, replacing every lemma
that no longer proves by Admitted, and reports the property theorems whose Print Assumptions then
mention an admitted lemma (or that failed themselves).  Appends one line per edit to seeded/LOG.jsonl.
usage: seed.py edits.json [--dry]"""
import json, os, re, shutil, subprocess, sys
ROOT = os.path.dirname(os.path.dirname(os.path.abspath(__file__)))
SCR = '/tmp/seed/rocq'
BASE = '/tmp/seedbase'
HEAD = re.compile(r'^(?:Local |Global )?(Lemma|Theorem|Example|Corollary|Fact|Remark|Instance|Definition|Fixpoint)\s+([\w\']+)', re.M)
def order():
    return [l.strip() for l in open(SCR + '/_CoqProject') if l.strip().endswith('.v')]
def admit(path, line):
    s = open(path).read()
    off = sum(len(x) for x in s.splitlines(True)[:line - 1])
    off = min(off + 1, len(s)) if not s[off:off+1].strip() == '' else off
    heads = [m for m in HEAD.finditer(s) if m.start() <= off + 2]
    if not heads: raise SystemExit('no head at %s:%d' % (path, line))
    h = heads[-1]
    p = s.find('Proof', h.start())
    q = re.compile(r'(Qed|Defined)\.').search(s, p)
    nxt = [m.start() for m in HEAD.finditer(s) if m.start() > h.start()]
    if p < 0 or q is None or (nxt and p > nxt[0]): raise SystemExit('cannot admit %s at %s:%d' % (h.group(2), path, line))
    open(path, 'w').write(s[:p] + 'Admitted.' + s[q.end():])
    return h.group(1), h.group(2)
def build():
    r = subprocess.run(['make', '-k', '-j2'], cwd=SCR, capture_output=True, text=True, timeout=3000)
    return r.returncode, r.stdout + r.stderr
def run(e):
    if os.path.exists('/tmp/seed'): shutil.rmtree('/tmp/seed')
    os.makedirs('/tmp/seed')
    subprocess.check_call(['cp', '-a', BASE, SCR])
    subprocess.check_call('coq_makefile -f _CoqProject -o Makefile', shell=True, cwd=SCR, stdout=subprocess.DEVNULL)
    f = SCR + '/theories/' + e['file']
    s = open(f).read()
    if s.count(e['old']) != 1: raise SystemExit('edit %r occurs %d times in %s' % (e['old'], s.count(e['old']), e['file']))
    open(f, 'w').write(s.replace(e['old'], e['new']))
    admitted = []
    for _ in range(60):
        rc, out = build()
        if rc == 0: break
        errs = {}
        for m in re.finditer(r'File "\./(theories/\w+\.v)", line (\d+)[^\n]*\nError', out):
            errs.setdefault(m.group(1), int(m.group(2)))
        if not errs:
            print(out[-3000:]); raise SystemExit('no errors found')
        for p, l in errs.items():
            k, n = admit(SCR + '/' + p, l)
            admitted.append((k, n, p))
    names = {n for _, n, _ in admitted}
    failed = []
    for p in order():
        if not os.path.basename(p).startswith('Prop'): continue
        src = open(SCR + '/' + p).read()
        if not os.path.exists(SCR + '/' + p + 'o'): failed.append(p); continue
        if os.path.getmtime(SCR + '/' + p + 'o') == os.path.getmtime(BASE + '/' + p + 'o'): continue
        r = subprocess.run(['coqc', '-Q', 'theories', 'Verif', p, '-o', '/tmp/seed/' + os.path.basename(p) + 'o'], cwd=SCR, capture_output=True, text=True)
        chunks = re.split(r'^(?=Closed under|Axioms:)', r.stdout, flags=re.M)[1:]
        thms = re.findall(r'^Print Assumptions ([\w\']+)\.', src, re.M)
        assert len(chunks) == len(thms), (p, len(chunks), len(thms), r.stderr[:500])
        for t, c in zip(thms, chunks):
            if any(re.search(r'(^|\.)%s\s*:' % re.escape(n), c, re.M) for n in names): failed.append(t)
    return admitted, failed
def main():
    edits = json.load(open(sys.argv[1]))
    if os.path.exists(BASE): shutil.rmtree(BASE)
    subprocess.check_call(['cp', '-a', ROOT + '/rocq', BASE])
    for e in edits:
        try: admitted, failed = run(e)
        except (SystemExit, AssertionError, subprocess.TimeoutExpired) as x:
            print('SKIPPED', e['def'], e['edit'], x, flush=True); continue
        ex = [n for k, n, _ in admitted if k == 'Example']
        line = {'definition': e['def'], 'edit': e['edit'], 'claim': e['claim'], 'failed': failed, 'lemmas_failed': [n for k, n, _ in admitted if k != 'Example' and n not in failed], 'examples_failed': ex, 'tightened': e.get('tightened', [])}
        print(json.dumps(line), flush=True)
        if '--dry' not in sys.argv:
            with open(ROOT + '/seeded/LOG.jsonl', 'a') as g: g.write(json.dumps(line) + '\n')
main()
