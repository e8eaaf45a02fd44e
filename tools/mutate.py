#!/usr/bin/env python3
"""Runs model mutants in a scratch copy and appends the outcome to seeded/LOG.jsonl.
usage: mutate.py mutants.py [first [last]]   (mutants.py defines MUTANTS = [(file, old, new, claim, broken), ...])"""
import sys, os, re, json, subprocess, shutil, runpy
VERIF = "/verif"; BASE = "/tmp/mutwork/base"; W = "/tmp/mutwork/w"
def sh(c, **k): return subprocess.run(c, shell=True, text=True, stdout=subprocess.PIPE, stderr=subprocess.STDOUT, **k)
def props():
    m = json.load(open(VERIF + "/MANIFEST.json")); names = {t for c in m["claims"] for t in c["theorems"]}
    where = {}
    for f in os.listdir(BASE + "/theories"):
        if f.endswith(".v"):
            for t in re.findall(r"^(?:Theorem|Lemma)\s+(\S+)", open(f"{BASE}/theories/{f}").read(), re.M):
                if t in names: where.setdefault(f[:-2], []).append(t)
    return where
def enclosing(f, line):
    name = "?"
    for i, l in enumerate(open(f), 1):
        if i > line: break
        m = re.match(r"\s*(?:Theorem|Lemma|Example|Definition|Fixpoint|Corollary)\s+(\S+)", l)
        if m: name = m.group(1)
    return name
def main():
    muts = runpy.run_path(sys.argv[1])["MUTANTS"]
    lo = int(sys.argv[2]) if len(sys.argv) > 2 else 0
    hi = int(sys.argv[3]) if len(sys.argv) > 3 else len(muts)
    where = props()
    for k, (f, old, new, claim, broken) in list(enumerate(muts))[lo:hi]:
        shutil.rmtree(W, ignore_errors=True); sh(f"cp -a {BASE} {W}")
        edits = [(f, old, new)] if isinstance(f, str) else [(g, old, new) if isinstance(g, str) else g for g in f]   # several copies of one function
        defn = None; bad = False
        for (g, o, n) in edits:
            p = f"{W}/theories/{g}.v"; s = open(p).read()
            if s.count(o) != 1:
                print(k, "BAD", g, s.count(o), o, flush=True); bad = True; break
            defn = defn or enclosing(p, s[:s.index(o)].count("\n") + 1)
            open(p, "w").write(s.replace(o, n))
        if bad: continue
        f = "+".join(e[0] for e in edits)
        tg = os.environ.get("TARGETS")      # build these first; everything else only if they survive
        r = sh(f"cd {W} && timeout 1500 make -k -j3 {tg} 2>&1") if tg else None
        if r is None or "Error" not in r.stdout: r = sh(f"cd {W} && timeout 1500 make -k -j3 2>&1")
        failed = []
        for m in re.finditer(r'File "\./theories/(\w+)\.v", line (\d+)', r.stdout):
            x = m.group(1) + "." + enclosing(f"{W}/theories/{m.group(1)}.v", int(m.group(2)))
            if x not in failed: failed.append(x)
        built = lambda n: os.path.exists(f"{W}/theories/{n}.vo") and os.path.getmtime(f"{W}/theories/{n}.vo") >= os.path.getmtime(p)
        # files whose .vo was not rebuilt because a dependency failed
        lost = []
        deps = set()
        for m in re.finditer(r"\*\*\* \[Makefile[^\]]*: theories/(\w+)\.vo\]", r.stdout): deps.add(m.group(1))
        for m in re.finditer(r"Target 'theories/(\w+)\.vo' not remade", r.stdout): deps.add(m.group(1))
        q = sh(f"cd {W} && make -q -k -n 2>&1 | grep -o 'theories/[A-Za-z0-9]*\\.v' | sort -u").stdout
        for x in re.findall(r"theories/(\w+)\.v", q): deps.add(x)
        for n in sorted(deps): lost += where.get(n, [])
        status = "KILLED" if failed else "SURVIVED"
        print(k, status, f, claim, failed[:4], len(lost), flush=True)
        json.dump({"k": k, "definition": f"{f}.{defn}", "edit": f"{old}  ==>  {new}", "claim_broken": f"{claim}: {broken}",
                   "result": status.lower(), "theorems_failed": failed, "property_theorems_no_longer_established": lost, "theorems_tightened": []},
                  open(f"/tmp/mutwork/out_{os.path.basename(sys.argv[1])}_{k}.json", "w"))
main()
