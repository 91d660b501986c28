#!/usr/bin/env python3
"""Rewrites the section of DESIGN.md between the ASSUMPTIONS markers from the output of Assumptions.v
(usage: coqc ... Assumptions.v > out; assum.py out)."""
import re, sys, os
from collections import OrderedDict
root = os.path.join(os.path.dirname(os.path.abspath(__file__)), "..")
names = re.findall(r'Print Assumptions (\w+)\.', open(root + '/rocq/theories/Assumptions.v').read())
blocks = re.split(r'(?m)^(?=Closed under the global context|Axioms:)', open(sys.argv[1]).read())[1:]
assert len(names) == len(blocks), (len(names), len(blocks))
g = OrderedDict()
for n, b in zip(names, blocks):
    ax = sorted({a or c for a, c in re.findall(r"(?m)^([A-Za-z_.0-9']+)\s*$|^([A-Za-z_.0-9']+) :", b)} - {'Axioms'})
    g.setdefault(tuple(ax), []).append(n)
out = []
for ax, ts in sorted(g.items(), key=lambda kv: len(kv[0])):
    out.append("**%s** (%d theorems):\n%s\n" % (", ".join("`%s`" % a for a in ax) if ax else "no axioms (closed under the global context)", len(ts), ", ".join(ts)))
p = root + '/DESIGN.md'; s = open(p).read()
a, b = "<!-- ASSUMPTIONS -->", "<!-- /ASSUMPTIONS -->"
i, j = s.index(a), s.index(b)
open(p, 'w').write(s[:i + len(a)] + "\n" + "\n".join(out) + s[j:])
