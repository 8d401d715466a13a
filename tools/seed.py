#!/usr/bin/env python3
"""Seeded-bug test: seed.py FILE 'OLD' 'NEW' CLAIM [LAST]

Copies /verif/rocq to a scratch directory, replaces OLD by NEW in theories/FILE.v, and
recompiles everything after FILE.  A proof that fails is replaced by Admitted and the
build goes on, so that at the end Print Assumptions tells which property theorems depend
on a failed proof.  Examples that fail are dropped.  Appends a line to seeded/LOG.jsonl."""
import sys, re, os, subprocess, json, shutil
FILE, OLD, NEW, CLAIM = sys.argv[1:5]
only = sys.argv[5].split(',') if len(sys.argv) > 5 else None
W = '/tmp/seed_%d' % os.getpid()
shutil.copytree('/verif/rocq', W)
files = [l.strip()[9:-2] for l in open(W + '/_CoqProject') if l.startswith('theories/')]
start = files.index(FILE)
p = f'{W}/theories/{FILE}.v'
s = open(p).read()
assert s.count(OLD) == 1, s.count(OLD)
open(p, 'w').write(s.replace(OLD, NEW))
def deps(f):
    out = []
    for l in re.findall(r'From Verif Require (?:Import|Export) ([^.]*)\.', open(f'{W}/theories/{f}.v').read()):
        out += l.split()
    return out
dirty = {FILE}
for f in files[start+1:]:
    if any(d in dirty for d in deps(f)): dirty.add(f)
need = None
if only is not None:
    need, todo = {FILE}, list(only)
    while todo:
        f = todo.pop()
        if f in need or f not in files: continue
        need.add(f); todo += deps(f)
order = [f for f in files if f in dirty and (need is None or f in need)]
failed = []; stop = None
HEAD = re.compile(r'^(?:Local )?(Lemma|Theorem|Fact|Corollary|Example|Let|Definition|Fixpoint|Remark)\s+([\w\']+)', re.M)
def compile(f):
    r = subprocess.run(['timeout', '900', 'coqc', '-q', '-w', 'none', '-Q', 'theories', 'Verif', f'theories/{f}.v'], cwd=W, capture_output=True, text=True)
    return r.returncode, r.stdout + r.stderr
for f in order:
    tries = 0
    while True:
        rc, out = compile(f)
        if rc == 0: break
        m = re.search(r'line (\d+), characters (\d+)', out)
        tries += 1
        if not m or tries > 80: stop = f'{f}: {out[-300:]}'; break
        src = open(f'{W}/theories/{f}.v').read()
        lines = src.split('\n'); pos = sum(len(l)+1 for l in lines[:int(m.group(1))-1]) + min(int(m.group(2)), len(lines[int(m.group(1))-1]))
        heads = [h for h in HEAD.finditer(src) if h.start() <= pos]
        if not heads: stop = f'{f}: {out[-300:]}'; break
        h = heads[-1]
        pr = src.find('Proof', h.start()); q = re.compile(r'\b(Qed|Defined)\.').search(src, h.start())
        if pr < 0 or not q or pos < pr:
            stop = f'{f}: statement of {h.group(2)} no longer typechecks: {out[-300:]}'; break
        if h.group(1) == 'Example':
            new = src[:h.start()] + src[q.end():]
        else:
            new = src[:pr] + 'Proof. Admitted.' + src[q.end():]
        failed.append(f + '.' + h.group(2))
        open(f'{W}/theories/{f}.v', 'w').write(new)
    if stop: break
broken = []
if not stop:
    props = [f for f in order if f.startswith('Prop')]
    chk = 'From mathcomp Require Import all_ssreflect all_algebra.\n'
    names = []
    for f in props:
        chk += f'From Verif Require {f}.\n'
        names += [f + '.' + m.group(2) for m in HEAD.finditer(open(f'{W}/theories/{f}.v').read()) if m.group(1) == 'Theorem']
    for n in names: chk += f'Goal True. idtac "@@{n}". Abort.\nPrint Assumptions Verif.{n}.\n'
    open(f'{W}/theories/SeedCheck.v', 'w').write(chk)
    rc, out = compile('SeedCheck')
    for part in out.split('@@')[1:]:
        n, body = part.split('\n', 1)
        lem = [x.split('.')[-1] for x in failed]
        if any(re.search(r'\b' + re.escape(l) + r'\b', body) for l in lem): broken.append(n.split('.')[-1])
rec = {"definition": FILE, "edit": OLD + "  ==>  " + NEW, "claim": CLAIM, "failed_proofs": failed[:25],
       "theorems_failed": broken, "theorems_tightened": []}
if stop: rec["build_stopped"] = stop
print(json.dumps(rec, indent=1))
open('/verif/seeded/LOG.jsonl', 'a').write(json.dumps(rec) + '\n')
shutil.rmtree(W)
