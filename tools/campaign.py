#!/usr/bin/env python3
"""Runs many wrong-program experiments, several at a time.

usage: campaign.py mutants.json results.jsonl [workers]

Mutants are as in mutate.py ("props" is not needed).  Each edit is applied to a copy of rocq/ and the whole development is
rebuilt up to the first proof that fails.  The theorems that failed are the Cnn_ theorems that rest on that proof, by the
references in the .glob files of the unchanged development.  A mutant whose edit does not type check is skipped."""
import json, os, re, shutil, subprocess, sys, glob, collections
from concurrent.futures import ThreadPoolExecutor
ROOT = os.path.dirname(os.path.dirname(os.path.abspath(__file__)))
BASE = os.environ.get("BASE", f"{ROOT}/rocq")
START = re.compile(r"^\s*(?:Local\s+|Global\s+)?(Lemma|Theorem|Corollary|Example|Fact|Remark|Definition|Fixpoint|Inductive|Instance|Program|with)\s+([\w']+)", re.M)

def graph():
    users = collections.defaultdict(set)
    for g in glob.glob(f"{BASE}/theories/*.glob"):
        mod = os.path.basename(g)[:-5]
        defs, refs = [], []
        for l in open(g, errors="replace"):
            m = re.match(r"R(\d+):\d+ Verif\.(\w+) \S+ (\S+) (\w+)$", l)
            if m: refs.append((int(m[1]), m[2], m[3])); continue
            m = re.match(r"(\w+) (\d+):\d+ \S+ (\S+)$", l)
            if m and m[1] in ("prf", "thm", "def", "ex", "lem"): defs.append((int(m[2]), m[3]))
        defs.sort(); refs.sort()
        i = 0
        for (pos, rm, rn) in refs:
            while i + 1 < len(defs) and defs[i + 1][0] <= pos: i += 1
            if defs and defs[i][0] <= pos: users[(rm, rn)].add((mod, defs[i][1]))
    return users

def resting_on(users, start):
    seen, todo = {start}, [start]
    while todo:
        for u in users.get(todo.pop(), ()):
            if u not in seen: seen.add(u); todo.append(u)
    return sorted(n for (_, n) in seen if re.match(r"C\d\d_", n))

def run(mu, slot, users):
    scr = f"{os.environ.get('CAMP', '/tmp/camp')}/w{slot}"
    shutil.rmtree(scr, ignore_errors=True)
    shutil.copytree(BASE, scr, symlinks=True)
    f = f"{scr}/theories/{mu['file']}.v"
    t = open(f).read()
    if t.count(mu["old"]) != 1: return {"status": "invalid", "why": "old not unique"}
    open(f, "w").write(t.replace(mu["old"], mu["new"]))
    try:
        r = subprocess.run(f"cd {scr} && make -j1 2>&1", shell=True, capture_output=True, text=True, timeout=3600)
    except subprocess.TimeoutExpired:
        return {"status": "timeout"}
    if r.returncode == 0: return {"status": "survived"}
    m = re.search(r'File "\./theories/(\w+)\.v", line (\d+), characters [\d-]+:\n(?:(?!File).*\n)*?Error', r.stdout)
    m = re.findall(r'File "\./theories/(\w+)\.v", line (\d+), characters [\d-]+:\nError', r.stdout)
    if not m: return {"status": "error", "why": r.stdout[-400:]}
    mod, line = m[0][0], int(m[0][1])
    text = open(f"{scr}/theories/{mod}.v").read()
    pos = sum(len(l) + 1 for l in text.split("\n")[:line])
    best = None
    for d in START.finditer(text):
        if d.start() < pos: best = d
        else: break
    if best is None or (best[1] in ("Definition", "Fixpoint", "with", "Inductive") and "Model" in mod) or mod in ("Base", "FMap"):
        return {"status": "invalid", "why": f"{mod} {line}"}
    return {"status": "killed", "at": f"{mod}.{best[2]}", "theorems": resting_on(users, (mod, best[2]))}

def main():
    mus = json.load(open(sys.argv[1]))
    out = sys.argv[2]
    workers = int(sys.argv[3]) if len(sys.argv) > 3 else 3
    done = set()
    if os.path.exists(out):
        for l in open(out): d = json.loads(l); done.add((d["file"], d["old"], d["new"]))
    users = graph()
    slots = list(range(workers))
    def job(mu):
        s = slots.pop()
        try: r = run(mu, f"{os.getpid()}_{s}", users)
        except Exception as e: r = {"status": "error", "why": repr(e)}
        slots.append(s)
        with open(out, "a") as o: o.write(json.dumps({**mu, **r}) + "\n")
    with ThreadPoolExecutor(workers) as ex:
        list(ex.map(job, [m for m in mus if (m["file"], m["old"], m["new"]) not in done]))

if __name__ == "__main__": main()
