#!/usr/bin/env python3
"""Writes AXIOMS.md: what Print Assumptions lists for every theorem of MANIFEST.json.  Run after building rocq/."""
import json, os, re, subprocess, tempfile
root = os.path.join(os.path.dirname(os.path.abspath(__file__)), "..")
man = json.load(open(os.path.join(root, "MANIFEST.json")))
th = os.path.join(root, "rocq", "theories")
mods = sorted(f[:-2] for f in os.listdir(th) if f.startswith("Prop_") and f.endswith(".v"))
names = []
for c in man["claims"]:
    for t in c["theorems"]:
        if t not in names:
            names.append(t)
where = {}
for m in mods:
    for t in re.findall(r"^(?:Theorem|Lemma|Corollary|Example)\s+(\w+)", open(os.path.join(th, m + ".v")).read(), re.M):
        where[t] = m
with tempfile.TemporaryDirectory() as d:
    src = "".join("From Verif Require %s.\n" % m for m in mods)
    for t in names:
        src += 'Goal True. idtac "@@%s". exact I. Qed.\nPrint Assumptions %s.%s.\n' % (t, where[t], t)
    open(os.path.join(d, "A.v"), "w").write(src)
    out = subprocess.run(["coqc", "-Q", th, "Verif", os.path.join(d, "A.v")], capture_output=True, text=True)
assert out.returncode == 0, out.stderr
groups = {}
for blk in out.stdout.split("@@")[1:]:
    t, _, rest = blk.partition("\n")
    ax = tuple(sorted(set(re.findall(r"^([A-Za-z_][\w.]*)\s*(?::|$)", rest, re.M)) - {"Axioms"}))
    if "Closed under the global context" in rest:
        ax = ()
    groups.setdefault(ax, []).append(t)
with open(os.path.join(root, "AXIOMS.md"), "w") as f:
    f.write("# What `Print Assumptions` lists for each claimed theorem\n\nGenerated by `tools/gen_axioms.py`.\n")
    for ax in sorted(groups, key=lambda a: (len(a), a)):
        f.write("\n## " + (", ".join("`%s`" % a for a in ax) or "Closed under the global context") + "\n\n")
        f.write(", ".join("`%s`" % t for t in groups[ax]) + "\n")
print({a: len(g) for a, g in groups.items()})
