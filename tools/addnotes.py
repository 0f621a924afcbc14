#!/usr/bin/env python3
"""Add or replace entries of tools/notes.json: reads lines 'Cnn|status|note' from stdin."""
import json, os, sys
q = os.path.join(os.path.dirname(os.path.abspath(__file__)), 'notes.json')
d = json.load(open(q))
for l in sys.stdin:
    l = l.strip()
    if l:
        c, s, n = l.split('|', 2)
        d[c] = [s, n]
json.dump(d, open(q, 'w'), indent=1)
