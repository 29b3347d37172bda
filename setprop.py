#!/usr/bin/env python3
"""setprop.py: reads JSON objects (one per line) on stdin; merges each into properties.jsonl by id (appends if new)."""
import json,sys
L=[json.loads(l) for l in open('properties.jsonl') if l.strip()]
ix={d['id']:d for d in L}
for l in sys.stdin:
    if not l.strip(): continue
    d=json.loads(l)
    if d['id'] in ix: ix[d['id']].update(d)
    else: L.append(d); ix[d['id']]=d
L.sort(key=lambda d:int(d['id'][1:]))
open('properties.jsonl','w').write(''.join(json.dumps(d)+'\n' for d in L))
