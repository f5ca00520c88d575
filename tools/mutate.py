#!/usr/bin/env python3
"""Mutation test.  usage: mutate.py MUTANTS.json [workdir]
Each mutant: {edits: [[file, old, new]...], definition, edit, claim}.  Builds a scratch copy
with the edit and reports the lemmas whose proofs fail.  A mutant may name the property files
to build ("targets": ["PropsForm"]); then only their theorems are looked at."""
import json, sys, re, subprocess, shutil, os
muts = json.load(open(sys.argv[1])); wd = sys.argv[2] if len(sys.argv) > 2 else '/tmp/mut'
shutil.rmtree(wd + '.src', ignore_errors=True)
subprocess.run(['cp', '-a', '/verif/rocq', wd + '.src'], check=True)
for i, m in enumerate(muts):
    shutil.rmtree(wd, ignore_errors=True)
    subprocess.run(['cp', '-a', wd + '.src', wd], check=True)
    bad = False
    for f, old, new in m['edits']:
        p = f"{wd}/theories/{f}"
        s = open(p).read()
        if s.count(old) < 1: print(i, 'NOT FOUND', old); bad = True; continue
        open(p, 'w').write(s.replace(old, new, 1))
    if bad: continue
    # failing proofs are replaced by Admitted one at a time, so that all failures show
    failed = []
    targets = m.get('targets', [])
    goals = ' '.join(f'theories/{t}.vo' for t in targets)
    for _ in range(60):
        r = subprocess.run(f'cd {wd} && make -j3 {goals} 2>&1', shell=True, capture_output=True, text=True)
        e = re.search(r'File "\./theories/(\w+)\.v", line (\d+)', r.stdout)
        if r.returncode == 0: break
        if not e: failed.append('?' + r.stdout[-300:]); break
        f, line = e.group(1), int(e.group(2))
        fp = f'{wd}/theories/{f}.v'
        L = open(fp).read().split('\n')
        j = line - 1
        while j >= 0 and not re.match(r'\s*(?:#\[\w+\] )?(Theorem|Lemma|Example|Definition|Fixpoint|Corollary|Instance|Fact)\b', L[j]): j -= 1
        name = re.match(r'\s*(?:#\[\w+\] )?\w+ (\w+)', L[j]).group(1)
        failed.append(f'{f}.{name}')
        a = j
        while not re.match(r'\s*Proof', L[a]):
            a += 1
            if a >= len(L): break
        b = a
        while b < len(L) and not re.search(r'(Qed|Defined)\.\s*$', L[b]): b += 1
        if a >= len(L) or b >= len(L) or a > line: failed.append('!cannot stub'); break
        L[a:b+1] = ['Admitted.'] + [''] * (b - a)
        open(fp, 'w').write('\n'.join(L))
    # property theorems whose proofs now rest on a stub
    props = []
    for f in sorted(os.listdir(f'{wd}/theories')):
        if not re.match(r'Props\w+\.v$', f): continue
        if targets and f[:-2] not in targets: continue
        names = re.findall(r'^Print Assumptions (\w+)\.', open(f'{wd}/theories/{f}').read(), re.M)
        r = subprocess.run(f'cd {wd} && coqc -Q theories Verif theories/{f} 2>&1', shell=True, capture_output=True, text=True)
        outs = re.findall(r'^(Closed under the global context|Axioms:)', r.stdout, re.M)
        if len(outs) != len(names): props.append(f'{f}: {len(outs)} of {len(names)} answers'); continue
        props += [n for n, o in zip(names, outs) if o == 'Axioms:']
    print(json.dumps({'definition': m['definition'], 'edit': m['edit'], 'claim_broken': m['claim'], 'theorems_failed': props, **({'looked_at': targets} if targets else {}), 'proofs_failed': failed, 'theorems_tightened': m.get('tightened', [])}), flush=True)
