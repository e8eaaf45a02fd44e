#!/usr/bin/env python3
"""Appends the outcomes of mutate.py (/tmp/mutwork/out_<name>_<k>.json) to seeded/LOG.jsonl, adding the
property theorems of MANIFEST.json whose file depends on a file that no longer compiles.
usage: mutlog.py name [tightened.json]"""
import sys, os, re, json, glob
V = "/verif/rocq/theories"
deps = {}
for f in os.listdir(V):
    if f.endswith(".v"):
        t = open(f"{V}/{f}").read(); d = set()
        for m in re.finditer(r"From Verif Require (?:Import |Export )?([^.]*)\.", t): d |= set(m.group(1).split())
        deps[f[:-2]] = d
def closure(x, seen=None):
    seen = seen if seen is not None else set()
    for y in deps.get(x, ()):
        if y not in seen: seen.add(y); closure(y, seen)
    return seen
names = {t for c in json.load(open("/verif/MANIFEST.json"))["claims"] for t in c["theorems"]}
where = {f: [t for t in re.findall(r"^(?:Theorem|Lemma)\s+(\w+)", open(f"{V}/{f}.v").read(), re.M) if t in names] for f in deps}
name = sys.argv[1]
tight = json.load(open(sys.argv[2])) if len(sys.argv) > 2 else {}
out = open("/verif/seeded/LOG.jsonl", "a")
for p in sorted(glob.glob(f"/tmp/mutwork/out_{name}_*.json"), key=lambda p: int(re.search(r"_(\d+)\.json", p).group(1))):
    r = json.load(open(p)); bad = {x.split(".")[0] for x in r["theorems_failed"]}
    lost = []
    for f in sorted(deps):
        if f in bad or bad & closure(f): lost += where[f]
    own = [x.split(".")[1] for x in r["theorems_failed"]]
    r["property_theorems_no_longer_established"] = lost
    r["theorems_tightened"] = tight.get(str(r["k"]), [])
    r["batch"] = name; out.write(json.dumps(r) + "\n")
