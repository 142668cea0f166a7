#!/usr/bin/env python3
"""Write ASSUMPTIONS.md: Print Assumptions for every theorem of the manifest (needs a finished build in rocq/)."""
import collections, glob, json, os, re, subprocess, tempfile
root = os.path.dirname(os.path.dirname(os.path.abspath(__file__)))
th = os.path.join(root, "rocq/theories")
res = collections.OrderedDict()
for f in sorted(glob.glob(os.path.join(th, "Prop*.v"))):
    mod = os.path.basename(f)[:-2]
    names = re.findall(r"^Theorem\s+(C\d\d_\w+)", open(f).read(), re.M)
    src = f"From Verif Require {mod}.\n" + "".join(
        f'Goal True. idtac "@@ {n}". Abort.\nPrint Assumptions {mod}.{n}.\n' for n in names)
    with tempfile.TemporaryDirectory() as d:
        p = os.path.join(d, "A.v")
        open(p, "w").write(src)
        r = subprocess.run(["coqc", "-w", "none", "-Q", th, "Verif", p], capture_output=True, text=True)
        assert r.returncode == 0, r.stderr
    for part in r.stdout.split("@@ ")[1:]:
        name, rest = part.split("\n", 1)
        ax = () if "Closed under the global context" in rest else tuple(sorted(set(re.findall(r"^([A-Za-z_][\w.]*)\s*:", rest, re.M)) - {"Axioms"}))
        res[name] = ax
groups = collections.OrderedDict()
for n, ax in res.items():
    groups.setdefault(ax, []).append(n)
with open(os.path.join(root, "ASSUMPTIONS.md"), "w") as o:
    o.write("# Print Assumptions of every theorem\n\nTheorems are grouped by the axioms they depend on.\n")
    for ax, ns in sorted(groups.items(), key=lambda t: len(t[0])):
        o.write("\n## " + (", ".join(f"`{a}`" for a in ax) or "none (closed under the global context)") + "\n\n")
        o.write(", ".join(sorted(ns)) + "\n")
print(len(res), "theorems", [(a, len(n)) for a, n in groups.items()])
