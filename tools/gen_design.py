#!/usr/bin/env python3
"""Regenerates DESIGN.md from tools/design.md, properties.jsonl, MANIFEST.json (results per property)."""
import json, os
R = os.path.dirname(os.path.dirname(os.path.abspath(__file__)))
props = [json.loads(l) for l in open(R + '/properties.jsonl')]
claims = {c['property']: c for c in json.load(open(R + '/MANIFEST.json'))['claims']}
rows = ['| id | property | status | theorems | remarks |', '|----|----|----|----|----|']
for p in props:
    c = claims[p['id']]
    note = (c.get('note') or 'Full statement.').replace('|', '\\|')
    rows.append(f"| {p['id']} | {p['title']} | {c['status']} | {len(c['theorems'])} | {note} |")
t = open(R + '/tools/design.md').read().replace('@@RESULTS@@', '\n'.join(rows))
open(R + '/DESIGN.md', 'w').write(t)
