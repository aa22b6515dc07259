#!/usr/bin/env python3
"""Test the theorems against wrong programs.

Usage: mutate.py MUTANTS.json [-j N]. Each mutant is {"def", "file", "old", "new", "edit", "claim"} with an optional "count"
(which occurrence of "old" to replace, from 0). The model is copied to a scratch directory outside the repository, edited and rebuilt with make -k; what
fails is appended to seeded/LOG.jsonl. A mutant that still builds is logged with an empty "theorems_failed" and
printed as SURVIVED.
"""
import glob, json, os, re, shutil, subprocess, sys
root = os.path.dirname(os.path.dirname(os.path.abspath(__file__)))
scratch = os.environ.get("SCRATCH", "/tmp/mutants")
jobs = "2"
if "-j" in sys.argv: jobs = sys.argv[sys.argv.index("-j") + 1]
muts = json.load(open(sys.argv[1]))
def enclosing(path, line):
    name = None
    for i, l in enumerate(open(path), 1):
        if i > line: break
        m = re.match(r"\s*(?:Global |Local )?(?:Theorem|Lemma|Example|Definition|Fixpoint|Corollary|Fact|Remark)\s+(\w+)", l)
        if m: name = m.group(1)
    return name
for m in muts:
    if os.path.exists(scratch): shutil.rmtree(scratch)
    shutil.copytree(os.environ.get("SNAP", root + "/rocq"), scratch, copy_function=shutil.copy2)
    p = scratch + "/theories/" + m["file"]
    s = open(p).read()
    n = s.count(m["old"])
    k = m.get("count", 0)
    if n == 0 or (n > 1 and "count" not in m):
        print("BAD", m["def"], "occurrences:", n, flush=True); continue
    parts = s.split(m["old"])
    s = m["old"].join(parts[:k + 1]) + m["new"] + m["old"].join(parts[k + 1:])
    open(p, "w").write(s)
    subprocess.run("coq_makefile -f _CoqProject -o Makefile", shell=True, cwd=scratch, capture_output=True)
    try:
        r = subprocess.run(["timeout", "1800", "make", "-k", "-j" + jobs], cwd=scratch, capture_output=True, text=True)
        out = r.stdout + r.stderr
        code = r.returncode
    except Exception as e:
        out, code = str(e), 1
    fails, bad = [], False
    for f, l in re.findall(r'File "\./(theories/\w+\.v)", line (\d+), characters [\d-]+:\s*\n(?:Error)', out):
        nm = enclosing(scratch + "/" + f, int(l))
        fails.append(nm)
        if f == "theories/" + m["file"]:
            bad = not re.search(r"(Theorem|Lemma) " + str(nm) + r"\b", open(scratch + "/" + f).read())
    lost = []
    for pf in sorted(glob.glob(scratch + "/theories/Props*.v")):
        if not os.path.exists(pf + "o") or os.path.getmtime(pf + "o") < os.path.getmtime(p):
            vo_ok = False
            # unaffected files keep their old .vo: they are only lost if make tried and failed
            rel = "theories/" + os.path.basename(pf) + "o"
            q = subprocess.run(["make", "-q", rel], cwd=scratch, capture_output=True)
            if q.returncode == 0: continue
            lost += re.findall(r"^Theorem (C\d\d\w+)", open(pf).read(), re.M)
    entry = {"definition": m["def"], "file": m["file"], "edit": m["edit"], "claim_broken": m["claim"],
             "failed_at": fails, "theorems_failed": [t for t in lost if any(t.startswith(c) for c in re.findall(r"C\d\d", m["claim"]))] or lost[:0],
             "property_files_lost": sorted(set(lost)) and len(set(lost)), "theorems_tightened": m.get("tightened", [])}
    tag = "ILL-TYPED" if bad else ("SURVIVED" if code == 0 else ("KILLED" if entry["theorems_failed"] else "KILLED-ELSEWHERE"))
    print(tag, m["def"], "|", m["edit"], "| at", fails, "| lost", len(lost), flush=True)
    if tag == "ILL-TYPED":
        print(out[-1500:]); continue
    with open(root + "/seeded/LOG.jsonl", "a") as fo: fo.write(json.dumps(entry) + "\n")
