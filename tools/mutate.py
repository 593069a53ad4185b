#!/usr/bin/env python3
"""Apply edits to a scratch copy of the model, rebuild and report what fails.
usage: mutate.py EDITS.json OUT.jsonl  (EDITS: list of {file, old, new, claim})"""
import json, os, re, shutil, subprocess, sys
root = os.path.dirname(os.path.dirname(os.path.abspath(__file__)))
jobs = json.load(open(sys.argv[1]))
out = open(sys.argv[2], "a")

def enclosing(path, line, what):
    name = None
    for n, l in enumerate(open(path), 1):
        if n > line: break
        m = re.match(r"\s*(?:#\[\w+\]\s*)?(Lemma|Theorem|Example|Definition|Fixpoint|Corollary)\s+(\w+)", l)
        if m: name = (m.group(1), m.group(2), n)
    return name[1] if name else "?"

for j in jobs:
    scratch = "/tmp/mut/w"
    shutil.rmtree(scratch, ignore_errors=True)
    shutil.copytree(os.path.join(root, "rocq"), scratch, copy_function=shutil.copy2)
    # work on the committed state
    g = lambda *a: subprocess.run(["git", "-C", root] + list(a), capture_output=True, text=True).stdout
    for f in g("diff", "--name-only", "HEAD", "--", "rocq").split():
        open(os.path.join(scratch, f[5:]), "w").write(g("show", "HEAD:" + f))
    for f in g("ls-files", "--others", "--exclude-standard", "--", "rocq").split():
        os.remove(os.path.join(scratch, f[5:]))
    p = os.path.join(scratch, "theories", j["file"])
    s = open(p).read()
    assert s.count(j["old"]) == 1, (s.count(j["old"]), j)
    open(p, "w").write(s.replace(j["old"], j["new"]))
    pre = s[:s.index(j["old"])].count("\n") + 1
    subprocess.run("coq_makefile -f _CoqProject -o Makefile", shell=True, cwd=scratch, capture_output=True)
    r = subprocess.run("ulimit -v 12000000; timeout 2400 make -k -j%s" % j.get("jobs", 2), shell=True, cwd=scratch, capture_output=True, text=True)
    t = r.stdout + r.stderr
    failed = []
    for m in re.finditer(r'File "\./theories/(\w+)\.v", line (\d+), characters [^\n]*\n(?!Warning)', t):
        f = m.group(1) + ".v"
        failed.append(f[:-2] + "." + enclosing(os.path.join(scratch, "theories", f), int(m.group(2)), f))
    # property files that no longer build
    broken = sorted(f[:-2] for f in os.listdir(os.path.join(scratch, "theories")) if f.startswith("Props") and f.endswith(".v")
                    and subprocess.run(["make", "-q", "theories/" + f + "o"], cwd=scratch, capture_output=True).returncode != 0)
    rec = dict(definition=j["file"] + ": " + enclosing(p, pre, ""), edit=j.get("edit") or (j["old"].strip() + "  =>  " + j["new"].strip()),
               claim=j["claim"], failed=failed, property_files_broken=broken, tightened=j.get("tightened", []))
    out.write(json.dumps(rec) + "\n"); out.flush()
    print(json.dumps(rec), flush=True)
