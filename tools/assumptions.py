#!/usr/bin/env python3
"""Rewrites the table of DESIGN.md listing what Print Assumptions reports for every property theorem.  Needs a finished build
in rocq/; asks again for the Print Assumptions written in the property files P_*.v."""
import glob, os, re, subprocess, tempfile
root = os.path.dirname(os.path.dirname(os.path.abspath(__file__)))
th = os.path.join(root, "rocq", "theories")
groups = {}
for f in sorted(glob.glob(os.path.join(th, "P_*.v"))):
    names = re.findall(r"^Print Assumptions (\w+)\.", open(f).read(), re.M)
    mod = os.path.basename(f)[:-2]
    with tempfile.TemporaryDirectory() as t:
        q = os.path.join(t, "Ask.v")
        open(q, "w").write("From Verif Require %s.\n" % mod + "".join("Print Assumptions %s.%s.\n" % (mod, n) for n in names))
        out = subprocess.run(["coqc", "-Q", th, "Verif", q], capture_output=True, text=True, check=True, cwd=t).stdout
    blocks = []
    for l in out.split("\n"):
        if re.match(r"^(Axioms:|Closed under)", l):
            blocks.append(set())
        else:
            m = re.match(r"^([\w\.']+)\s*(:|$)", l)
            if m and blocks:
                blocks[-1].add(m.group(1).split(".")[-1])
    assert len(names) == len(blocks), (f, len(names), len(blocks))
    for n, b in zip(names, blocks):
        groups.setdefault(tuple(sorted(b)), []).append(n)
text = ""
for ax, ns in sorted(groups.items(), key=lambda x: len(x[0])):
    text += "* **" + (", ".join("`%s`" % a for a in ax) if ax else "closed under the global context (no axioms)") + "**: "
    text += ", ".join(sorted(ns)) + ".\n"
p = os.path.join(root, "DESIGN.md")
s = open(p).read()
a, b = "<!-- assumptions -->\n", "<!-- end assumptions -->"
i, j = s.index(a) + len(a), s.index(b)
open(p, "w").write(s[:i] + text + s[j:])
print({k: len(v) for k, v in groups.items()})
