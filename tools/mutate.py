#!/usr/bin/env python3
"""Apply wrong-program edits to a scratch copy of the model and record which proofs fail.

usage: mutate.py mutants.json   (list of {file, def, old, new, edit, claim, theorems, [tightened]})
Each mutant edits one definition, rebuilds the dependent files in the scratch copy and appends one line to
seeded/LOG.jsonl.  "first_failures" are the statements whose proofs stop compiling; the property theorems that rest
on them cannot be rebuilt."""
import json, os, re, shutil, subprocess, sys
ROOT = os.path.dirname(os.path.dirname(os.path.abspath(__file__)))
SCR = os.environ.get("SCR", "/tmp/mut")
def sh(cmd, **k): return subprocess.run(cmd, shell=True, capture_output=True, text=True, **k)
def enclosing(path, line):
    name = None
    for i, l in enumerate(open(path), 1):
        if i > line: break
        m = re.match(r"\s*(?:Lemma|Theorem|Example|Corollary|Definition|Fixpoint|Fact|Remark)\s+([\w']+)", l)
        if m: name = m.group(1)
    return name
def main():
    muts = json.load(open(sys.argv[1]))
    if os.path.exists(SCR): shutil.rmtree(SCR)
    shutil.copytree(os.path.join(ROOT, "rocq"), SCR)
    sh("coq_makefile -f _CoqProject -o Makefile && make -j4", cwd=SCR)
    for m in muts:
        p = os.path.join(SCR, "theories", m["file"])
        src = open(p).read()
        n = src.count(m["old"])
        if n != 1:
            print("SKIP (old text occurs %d times): %s / %s" % (n, m["file"], m["edit"])); continue
        open(p, "w").write(src.replace(m["old"], m["new"]))
        r = sh("timeout 1500 make -k -j4", cwd=SCR)
        fails = []
        for f, l in re.findall(r'File "\./(theories/\w+\.v)", line (\d+), characters [\d-]+:\nError', r.stdout + r.stderr):
            fails.append(os.path.basename(f)[:-2] + "." + str(enclosing(os.path.join(SCR, f), int(l))))
        props = [t for t in m["theorems"]]
        built = {}
        for t in props:
            g = sh("grep -lE '^(Theorem|Lemma) %s\\b' theories/*.v" % t, cwd=SCR).stdout.split()
            vo = os.path.join(SCR, (g or ["none.v"])[0] + "o")
            built[t] = os.path.exists(vo) and os.path.getmtime(vo) > os.path.getmtime(p)
        survived = [t for t in props if built[t]]
        print(("SURVIVED " if survived else "killed   ") + m["def"] + ": " + m["edit"] + "  -> " + ", ".join(fails))
        rec = {"definition": m["file"][:-2] + "." + m["def"], "edit": m["edit"], "claim_broken": m["claim"],
               "theorems_failed": [t for t in props if not built[t]], "first_failures": fails,
               "theorems_survived": survived, "theorems_tightened": m.get("tightened", [])}
        with open(os.path.join(ROOT, "seeded", "LOG.jsonl"), "a") as o: o.write(json.dumps(rec) + "\n")
        open(p, "w").write(src)
    # restore
main()
