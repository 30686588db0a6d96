#!/usr/bin/env python3
"""Rewrite section 7 of DESIGN.md: what Print Assumptions says about every property theorem.
Needs a finished build in rocq/."""
import glob, os, re, subprocess, tempfile
root = os.path.dirname(os.path.dirname(os.path.abspath(__file__)))
names, mods = [], []
for f in sorted(glob.glob(os.path.join(root, "rocq/theories/Prop*.v"))):
    mod = os.path.basename(f)[:-2]
    mods.append(mod)
    names += [(mod, n) for n in re.findall(r"^Theorem (C\d\d_\w+)", open(f).read(), re.M)]
src = "".join(f"From Verif Require {m}.\n" for m in mods)
src += "".join(f"Check True. Print Assumptions {m}.{n}.\n" for m, n in names)
with tempfile.TemporaryDirectory() as t:
    open(t + "/All.v", "w").write(src)
    out = subprocess.run(["coqc", "-Q", os.path.join(root, "rocq/theories"), "Verif", t + "/All.v"], capture_output=True, text=True).stdout
parts = [p.strip() for p in out.split("True\n     : Prop\n")[1:]]
assert len(parts) == len(names), (len(parts), len(names))
closed = [n for (m, n), p in zip(names, parts) if p == "Closed under the global context"]
other = [(n, p) for (m, n), p in zip(names, parts) if p != "Closed under the global context"]
text = "## 7. Print Assumptions\n\nOutput of `tools/assumptions.py` (%d theorems).\n\n\"Closed under the global context\":\n\n" % len(names)
byc = {}
for n in sorted(closed):
    byc.setdefault(n[:3], []).append(n[4:])
text += "".join("* %s: %s\n" % (k, ", ".join(v)) for k, v in byc.items())
if other:
    text += "\nOthers:\n\n" + "".join("* %s: %s\n" % x for x in other)
p = os.path.join(root, "DESIGN.md")
d = open(p).read()
tail = "\n## 8." + d.split("\n## 8.")[1] if "\n## 8." in d else ""
d = d.split("## 7. Print Assumptions")[0].rstrip() + "\n\n" + text + tail
open(p, "w").write(d)
print(len(closed), "closed,", len(other), "others")
