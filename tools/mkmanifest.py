#!/usr/bin/env python3
"""Write MANIFEST.json from the Props spec files and tools/notes.json."""
import re, json, glob, collections
th = collections.defaultdict(list)
for f in sorted(glob.glob('tools/Props*.txt')):
    ids = []
    for l in open(f):
        m = re.match(r'@@ (\S+) (\S+) (\S+)', l)
        if m:
            ids = m.group(1).split(',')
            for i in ids: th[i].append(m.group(3))
            continue
        m = re.match(r'Theorem (\w+)', l)
        if m:
            for i in ids: th[i].append(m.group(1))
notes = json.load(open('tools/notes.json'))
claims = []
for l in open('properties.jsonl'):
    i = json.loads(l)['id']
    if i in th or i in notes:
        n = notes.get(i, {})
        claims.append({'property': i, 'status': n.get('status', 'proved'), 'theorems': th[i], 'note': n.get('note', '')})
json.dump({'claims': claims}, open('MANIFEST.json', 'w'), indent=1)
