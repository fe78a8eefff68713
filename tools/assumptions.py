#!/usr/bin/env python3
"""Write the part of DESIGN.md between the ASSUMPTIONS markers: what Print Assumptions lists for
each property theorem, from the compiled files of rocq/theories."""
import re, glob, os, subprocess, tempfile, collections
T = "/verif/rocq/theories"
names = []
for f in sorted(glob.glob(T + "/*.v")):
    for m in re.finditer(r"^\s*(?:Theorem|Lemma) (C\d+_\w+)", open(f).read(), re.M):
        names.append((m.group(1), os.path.basename(f)[:-2]))
names.sort(key=lambda p: (int(re.match(r"C(\d+)", p[0]).group(1)), p[0]))
d = tempfile.mkdtemp()
with open(d + "/A.v", "w") as o:
    o.write("From Verif Require " + " ".join(sorted({m for _, m in names})) + ".\n")
    for n, m in names:
        o.write(f'Goal True. idtac "@@ {n}". exact I. Qed.\nPrint Assumptions Verif.{m}.{n}.\n')
out = subprocess.run(["coqc", "-Q", T, "Verif", d + "/A.v"], capture_output=True, text=True)
assert out.returncode == 0, out.stderr
sets = collections.OrderedDict()
for part in out.stdout.split("@@ ")[1:]:
    n, rest = part.split("\n", 1)
    ax = sorted(set(re.findall(r"^([A-Za-z_][\w.]*)\s*:", rest, re.M)))
    ax = [a for a in ax if a != 'Axioms']
    if "Closed under" not in rest: assert ax, part
    sets.setdefault(tuple(ax), []).append(n)
res = []
for ax, ns in sorted(sets.items(), key=lambda p: len(p[0])):
    res.append("* " + ("**Closed under the global context** (no axiom)" if not ax else ", ".join(f"`{a}`" for a in ax)) + f" — {len(ns)} theorems:\n  " + ", ".join(ns) + "\n")
p = "/verif/DESIGN.md"
s = open(p).read()
a, b = "<!-- ASSUMPTIONS -->\n", "<!-- /ASSUMPTIONS -->"
s = s[:s.index(a) + len(a)] + "\n".join(res) + s[s.index(b):]
open(p, "w").write(s)
print(len(names), [(len(k), len(v)) for k, v in sets.items()])
