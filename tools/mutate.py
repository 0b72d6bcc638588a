#!/usr/bin/env python3
"""Seeded-bug runner.  Usage: mutate.py muts.json
Each entry: {"file": "X_Model.v", "def": "...", "old": "...", "new": "...", "edit": "...", "claim": "..."}.
Copies the built tree, applies the edit, runs make -k, reports which statements fail.
Results are appended to seeded/LOG.jsonl by hand-checked call with --log."""
import sys, json, os, re, shutil, subprocess, concurrent.futures as cf
root = "/verif"
def stmt_at(path, line):
    name = "?"
    for i, l in enumerate(open(path), 1):
        m = re.match(r"\s*(?:Theorem|Lemma|Example|Corollary|Definition|Fixpoint)\s+(\w+)", l)
        if m: name = m.group(1)
        if i >= line: break
    return name
def run(iv):
    i, m = iv
    d = f"/tmp/mut/{i}"
    shutil.rmtree(d, ignore_errors=True)
    shutil.copytree(f"{root}/rocq", d)
    p = f"{d}/theories/{m['file']}"
    s = open(p).read()
    if s.count(m["old"]) < 1: return m, ["OLD TEXT NOT FOUND"], ""
    if s.count(m["old"]) > 1 and not m.get("multi"): return m, ["OLD TEXT AMBIGUOUS %d" % s.count(m["old"])], ""
    open(p, "w").write(s.replace(m["old"], m["new"]))
    try:
        r = subprocess.run("make -k 2>&1", shell=True, cwd=d, capture_output=True, text=True, timeout=900)
    except subprocess.TimeoutExpired:
        return m, ["TIMEOUT"], ""
    fails = []
    for mm in re.finditer(r'File "\./theories/(\w+\.v)", line (\d+), characters [^\n]*\nError', r.stdout):
        fails.append(mm.group(1) + ":" + stmt_at(f"{d}/theories/{mm.group(1)}", int(mm.group(2))))
    shutil.rmtree(d, ignore_errors=True)
    return m, fails, r.stdout[-300:]
muts = json.load(open(sys.argv[1]))
os.makedirs("/tmp/mut", exist_ok=True)
with cf.ThreadPoolExecutor(4) as ex:
    res = list(ex.map(run, enumerate(muts)))
out = open(f"{root}/seeded/LOG.jsonl", "a") if "--log" in sys.argv else None
for m, fails, tail in res:
    print(("SURVIVED " if not fails else "killed   ") + m["file"], "|", m["edit"], "->", fails)
    if out:
        out.write(json.dumps({"definition": m["file"] + ":" + m["def"], "edit": m["edit"], "claim": m["claim"],
                              "theorems_failed": fails, "tightened": m.get("tightened", [])}) + "\n")
