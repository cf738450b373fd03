#!/usr/bin/env python3
"""Seeded-bug runner.  usage: mutate.py edits.json
edits.json: list of {file, definition, old, new, edit, claim}.  For each: copy the
compiled model to a scratch directory outside /verif, apply the edit, rebuild, and
append to LOG.jsonl the theorem-file statements that no longer check."""
import json, os, re, shutil, subprocess, sys, time
SCR = os.environ.get('SCR', '/tmp/seed')
def sh(c, cwd): return subprocess.run(c, shell=True, cwd=cwd, capture_output=True, text=True)
def theorem_at(path, line):
    name = None
    for i, l in enumerate(open(path), 1):
        if i > line: break
        m = re.match(r'\s*(Theorem|Lemma|Corollary|Fact|Example|Definition|Fixpoint|Inductive)\s+(\w+)', l)
        if m: name = m.group(2)
    return name
def deps(scr):
    d = {}
    for l in open(scr + '/.Makefile.d'):
        if '.vo ' not in l and not l.startswith('theories'): continue
        lhs, _, rhs = l.partition(':')
        t = lhs.split()[0]
        if not t.endswith('.vo'): continue
        d[os.path.basename(t)[:-3]] = {os.path.basename(x)[:-3] for x in rhs.split() if x.endswith('.vo') and x.startswith('theories')}
    return d
def main():
    for e in json.load(open(sys.argv[1])):
        if os.path.exists(SCR): shutil.rmtree(SCR)
        shutil.copytree('/verif/rocq', SCR)
        p = f'{SCR}/theories/{e["file"]}'
        s = open(p).read()
        if s.count(e['old']) != 1:
            print('BAD EDIT', e['file'], e['definition'], s.count(e['old'])); continue
        open(p, 'w').write(s.replace(e['old'], e['new']))
        t0 = time.time()
        r = sh('coq_makefile -f _CoqProject -o Makefile >/dev/null; timeout 1500 make -k -j2 2>&1', SCR)
        failed = []
        files = set()
        for m in re.finditer(r'File "\./theories/(\w+)\.v", line (\d+), characters [^\n]*\n(Error|.*\n?Error)', r.stdout):
            f, ln = m.group(1), int(m.group(2))
            files.add(f)
            failed.append(f'{f}.{theorem_at(f"{SCR}/theories/{f}.v", ln)}')
        d = deps(SCR)
        blocked = set(files)
        ch = True
        while ch:
            ch = False
            for k, v in d.items():
                if k not in blocked and v & blocked: blocked.add(k); ch = True
        e2 = {'definition': f'{e["file"]}:{e["definition"]}', 'edit': e['edit'], 'claim': e['claim'],
              'theorems_failed': failed, 'theorem_files_blocked': sorted(x for x in blocked if x.startswith('P_')),
              'tightened': []}
        open('/tmp/mut/results.jsonl', 'a').write(json.dumps(e2) + '\n')
        print(('KILLED ' if failed else 'SURVIVED ') + e['definition'], '|', e['edit'], '|', failed[:6], f'{time.time()-t0:.0f}s', flush=True)
main()
