#!/usr/bin/env python3
"""Systematic wrong-program search: applies small edits one at a time to the definitions
of the given Model files in a scratch copy and rebuilds.  Edits after which everything
still builds are written to the survivors file for review.

usage: automutate.py OUT Model1 Model2 ...   (scratch directory in $MUT)"""
import os, random, re, shutil, subprocess, sys
ROOT = os.path.dirname(os.path.dirname(os.path.abspath(__file__)))
SCR = os.environ.get("MUT", "/tmp/automut")
OUT, MODELS = sys.argv[1], sys.argv[2:]
LIMIT = int(os.environ.get("LIMIT", "100000"))

def sh(cmd, t=3000):
    try: return subprocess.run(cmd, shell=True, capture_output=True, text=True, timeout=t)
    except subprocess.TimeoutExpired: return None

RULES = [
 (r"<\?", ["<=?"]), (r"<=\?", ["<?"]), (r"\btrue\b", ["false"]), (r"\bfalse\b", ["true"]),
 (r"&&", ["||"]), (r"\|\|", ["&&"]), (r"\bnegb\b", ["id"]), (r" \+ ", [" - "]), (r" - ", [" + "]),
 (r"\bfst\b", ["snd"]), (r"\bsnd\b", ["fst"]), (r"\bforallb\b", ["existsb"]), (r"\bexistsb\b", ["forallb"]),
 (r"(?<![\w.\"^])\d+(?![\w\"])", ["N+1"]), (r"\bErr\b", ["Panic"]), (r"\bPanic\b", ["Err"]),
 (r"\bNullable\b", ["Required"]), (r"\bRequired\b", ["Nullable"]),
 (r"\bif ([^\n]+?) then\b", ["IFNOT"]), (r" :: ", ["SKIP"]),
]

def comments(t):
    spans, i, depth, st = [], 0, 0, 0
    while i < len(t) - 1:
        if t[i:i+2] == "(*":
            if depth == 0: st = i
            depth += 1; i += 2
        elif t[i:i+2] == "*)" and depth:
            depth -= 1; i += 2
            if depth == 0: spans.append((st, i))
        else: i += 1
    return spans

def mutants(t):
    sp = comments(t)
    inc = lambda p: any(a <= p < b for a, b in sp)
    body0 = t.find("Open Scope"); 
    out = []
    for pat, reps in RULES:
        for m in re.finditer(pat, t):
            if inc(m.start()) or m.start() < body0: continue
            for r in reps:
                if r == "SKIP": continue
                if r == "N+1": new = str(int(m[0]) + 1)
                elif r == "IFNOT": new = f"if negb ({m[1]}) then"
                else: new = r
                out.append((m.start(), m.end(), new))
    # replace the right-hand side of a match arm by that of the next arm
    arms = [m for m in re.finditer(r"\|([^|\n]*?)=> ([^\n|]*)", t) if not inc(m.start()) and m.start() > body0]
    for a, b in zip(arms, arms[1:]):
        if b.start() - a.end() < 40 and a[2].strip() != b[2].strip() and a[2].strip():
            x = re.sub(r"\s*end\)?\.?\s*$", "", b[2]).rstrip()
            if x and not re.search(r"\bend\b", a[2]):
                out.append((a.start(2), a.start(2) + len(a[2].rstrip()), x))
            y = a[2].rstrip()
            mm = re.match(r"^(.*?)(\s*end\)*\.?\s*)?$", b[2])
            if mm and not re.search(r"\bend\b", y):
                out.append((b.start(2), b.start(2) + len(mm[1].rstrip()), y))
    return out

def defname(t, pos):
    ms = [m for m in re.finditer(r"^\s*(?:Definition|Fixpoint|with|Inductive|Record)\s+([\w']+)", t, re.M) if m.start() <= pos]
    return ms[-1][1] if ms else "?"

def main():
    if os.path.exists(SCR): shutil.rmtree(SCR)
    sh(f"cp -a {ROOT}/rocq {SCR}")
    sh(f"cd {SCR} && coq_makefile -f _CoqProject -o Makefile && make -j2")
    out = open(OUT, "a")
    allm = []
    for mod in MODELS:
        t = open(f"{SCR}/theories/{mod}.v").read()
        allm += [(mod, t, m) for m in mutants(t)]
    random.seed(7); random.shuffle(allm)
    allm = allm[:LIMIT]
    out.write(f"# {MODELS}: {len(allm)} edits\n"); out.flush()
    k = s = e = 0
    for mod, t, (a, b, new) in allm:
        f = f"{SCR}/theories/{mod}.v"
        nt = t[:a] + new + t[b:]
        if nt == t: continue
        open(f, "w").write(nt)
        r = sh(f"cd {SCR} && timeout 600 coqc -q -Q theories Verif theories/{mod}.v")
        if r is None or r.returncode != 0:
            e += 1
        else:
            r = sh(f"cd {SCR} && timeout 1500 make -j1 2>&1")
            if r is not None and r.returncode == 0:
                s += 1
                ln = t[:a].count("\n") + 1
                out.write(f"SURVIVOR {mod}:{ln} {defname(t,a)}: {t[a:b]!r} -> {new!r}   | {t.split(chr(10))[ln-1].strip()}\n"); out.flush()
            else: k += 1
        open(f, "w").write(t)
        if (k + s + e) % 20 == 0: out.write(f"# killed {k} survived {s} ill-typed {e}\n"); out.flush()
    out.write(f"# done killed {k} survived {s} ill-typed {e}\n")
main()
