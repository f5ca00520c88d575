#!/usr/bin/env python3
"""Write a Props file: restate theorems proved elsewhere, with examples beside them.

usage: mkprops.py SPEC OUT
SPEC: header text, then blocks
  @@ <property ids> <Module> <theorem>
  free text put in a comment
  ---
  Coq text of the examples (may be empty)
"""
import re, sys
spec, out = sys.argv[1], sys.argv[2]
txt = open(spec).read()
head, *blocks = re.split(r'^@@ ', txt, flags=re.M)
res = [head.rstrip() + '\n']
for b in blocks:
    first, rest = b.split('\n', 1)
    ids, mod, thm = first.split()
    com, ex = (rest.split('---\n', 1) + [''])[:2] if '---\n' in rest else (rest, '')
    src = open(f'rocq/theories/{mod}.v').read()
    m = re.search(r'^(?:Theorem|Lemma) %s\s*:\s*(.*?)\.\s*\nProof' % re.escape(thm), src, flags=re.S | re.M)
    if not m: sys.exit('no theorem ' + thm)
    stmt = m.group(1)
    ctx = '{U : Unicode} {UOK : UnicodeOk U} ' if 'UOK' in src else ('{U : Unicode} ' if 'Context {U : Unicode}' in src else '')
    res.append(f'(** {ids.replace(",", ", ")}. {com.strip()} *)\nTheorem {thm} {ctx}:\n  {stmt}.\nProof. exact {mod}.{thm}. Qed.\nPrint Assumptions {thm}.\n')
    if ex.strip(): res.append(ex.strip() + '\n')
open(out, 'w').write('\n'.join(res))
