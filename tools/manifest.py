#!/usr/bin/env python3
"""Generates MANIFEST.json from the Props_*.v files (theorem names start with the property id) and
NOTES below, and theories/Assumptions.v (Print Assumptions for every theorem)."""
import json, os, re, glob
here = os.path.dirname(os.path.abspath(__file__)); root = os.path.join(here, "..")
NOTES = json.load(open(os.path.join(here, "notes.json")))
props = [json.loads(l)["id"] for l in open(os.path.join(root, "properties.jsonl"))]
order = [l.strip() for l in open(os.path.join(root, "rocq/_CoqProject")) if "Props_" in l]
thms, mods = {}, {}
for f in order:
    m = os.path.basename(f)[:-2]
    for t in re.findall(r"^(?:Theorem|Corollary) (C\d\d\w*)", open(os.path.join(root, "rocq", f)).read(), re.M):
        thms.setdefault(re.match(r"C\d+", t).group(0), []).append(t); mods.setdefault(m, []).append(t)
claims = []
for i in props:
    n = NOTES.get(i, {})
    ts = thms.get(i, [])
    st = n.get("status", "proved" if ts else "partial")
    if not ts: st = n.get("status", "partial")
    if ts or "status" in n:
        claims.append(dict(property=i, status=st, theorems=ts, note=n.get("note", "")))
json.dump({"claims": claims}, open(os.path.join(root, "MANIFEST.json"), "w"), indent=1)
with open(os.path.join(root, "rocq/theories/Assumptions.v"), "w") as g:
    g.write("(** Generated by tools/manifest.py: the assumptions of every property theorem. *)\n")
    g.write("From Verif Require Import " + " ".join(mods) + ".\n")
    for m in mods:
        for t in mods[m]: g.write("Print Assumptions %s.\n" % t)
print(len(claims), "claims", sum(len(v) for v in thms.values()), "theorems")
