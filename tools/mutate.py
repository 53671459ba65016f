#!/usr/bin/env python3
"""Runs wrong-program experiments on a scratch copy of the development.

usage: mutate.py mutants.json [LOG.jsonl]

Each mutant is {"def", "file", "old", "new", "edit", "claim", "props": [Props files]}.  The
edit is applied to a copy of rocq/ in /tmp/mut; every lemma whose script fails is admitted
(in the copy) so that the build can go on, and at the end the Cnn_ theorems of the named
Props files that are no longer closed are the theorems that failed."""
import json, os, re, shutil, subprocess, sys, tempfile
ROOT = os.path.dirname(os.path.dirname(os.path.abspath(__file__)))
SCR = os.environ.get("MUT", "/tmp/mut")

def sh(cmd, **kw):
    return subprocess.run(cmd, shell=True, capture_output=True, text=True, **kw)

START = re.compile(r"^\s*(?:Local\s+|Global\s+)?(Lemma|Theorem|Corollary|Example|Fact|Remark|Definition|Fixpoint|Instance|Program)\s+([\w']+)", re.M)

def enclosing(text, line):
    pos = sum(len(l) + 1 for l in text.split("\n")[:line])
    best = None
    for m in START.finditer(text):
        if m.start() < pos: best = m
        else: break
    return best

def admit(path, line):
    t = open(path).read()
    m = enclosing(t, line)
    if m is None or m[1] in ("Definition", "Fixpoint", "Instance", "Program"):
        return None, (m[2] if m else "?")
    p = re.compile(r"\bProof\b[^.]*\.|\bProof\.").search(t, m.end())
    q = re.compile(r"\b(Qed|Defined|Admitted)\.").search(t, m.end())
    if not p or not q: return None, m[2]
    new = t[:p.start()] + "Proof. Admitted." + t[q.end():]
    if new == t: return None, m[2]
    # keep the line structure for later messages irrelevant: file is recompiled
    open(path, "w").write(new)
    return True, m[2]

def run(mu):
    if os.path.exists(SCR): shutil.rmtree(SCR)
    sh(f"cp -a {ROOT}/rocq {SCR}")
    f = f"{SCR}/theories/{mu['file']}.v"
    t = open(f).read()
    n = t.count(mu["old"])
    if n != 1: return {"error": f"old occurs {n} times"}
    open(f, "w").write(t.replace(mu["old"], mu["new"]))
    targets = " ".join(f"theories/{p}.vo" for p in mu["props"])
    broken = []
    for _ in range(60):
        r = sh(f"cd {SCR} && make -k -j4 {targets} 2>&1", timeout=3000)
        errs = re.findall(r'File "\./theories/(\w+)\.v", line (\d+)[^\n]*\n(?=(?:[^\n]*\n)*?Error)', r.stdout)
        errs = re.findall(r'File "\./theories/(\w+)\.v", line (\d+), characters [\d-]+:\nError', r.stdout)
        if not errs:
            if r.returncode != 0: return {"error": r.stdout[-600:]}
            break
        seen = set()
        for (b, l) in errs:
            if b in seen: continue
            seen.add(b)
            ok, name = admit(f"{SCR}/theories/{b}.v", int(l))
            if not ok: return {"error": f"{b}:{l} {name} " + r.stdout[-600:]}
            broken.append(name)
    failed = []
    for p in mu["props"]:
        src = open(f"{SCR}/theories/{p}.v").read()
        names = re.findall(r"^(?:Theorem|Example)\s+(C\d\d\w*)", src, re.M)
        names = [x for x in names]
        q = f"From Verif Require Import {p}.\n" + "".join(f'Goal True. idtac "@@{x}". Abort.\nPrint Assumptions {p}.{x}.\n' for x in names)
        open("/tmp/mutq.v", "w").write(q)
        r = sh(f"cd {SCR} && coqc -Q theories Verif /tmp/mutq.v")
        cur = None
        for line in r.stdout.split("\n"):
            if line.startswith("@@"): cur = line[2:]
            elif line.startswith("Axioms:") and cur: failed.append(cur)
    return {"broken_lemmas": broken, "failed": failed}

log = sys.argv[2] if len(sys.argv) > 2 else None
for mu in json.load(open(sys.argv[1])):
    r = run(mu)
    print(mu["def"], "|", mu["edit"], "->", r.get("error") or (r["failed"], "broken:", r["broken_lemmas"]), flush=True)
    if log and "error" not in r:
        with open(log, "a") as h:
            h.write(json.dumps({"definition": mu["def"], "edit": mu["edit"], "claim": mu["claim"],
                "theorems_failed": r["failed"], "theorems_tightened": mu.get("tightened", [])}) + "\n")
