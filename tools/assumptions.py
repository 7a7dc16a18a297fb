"""Print, for every theorem named in MANIFEST.json, the axioms it rests on; writes the table between the markers in DESIGN.md.
Needs a finished build in rocq/."""
import json, os, re, subprocess, sys, tempfile
root = os.path.join(os.path.dirname(os.path.abspath(__file__)), "..")
th = os.path.join(root, "rocq", "theories")
where = {}
for f in sorted(os.listdir(th)):
    if f.endswith("Props.v"):
        for m in re.finditer(r"^\s*Theorem (c\d+_\w+)", open(os.path.join(th, f)).read(), re.M):
            where[m.group(1)] = f[:-2]
names = [t for c in json.load(open(os.path.join(root, "MANIFEST.json")))["claims"] for t in c["theorems"]]
mods = {}
for t in names: mods.setdefault(where[t], []).append(t)
table = {}
for mod, ts in mods.items():
    with tempfile.TemporaryDirectory() as d:
        p = os.path.join(d, "A.v")
        with open(p, "w") as o:
            o.write("From Verif Require %s.\n" % mod)
            for t in ts: o.write('Goal True. idtac "@@%s". exact I. Qed.\nPrint Assumptions %s.%s.\n' % (t, mod, t))
        out = subprocess.run(["coqc", "-Q", th, "Verif", p], capture_output=True, text=True).stdout
    for block in out.split("@@")[1:]:
        t = block.split()[0]
        ax = [a for a in re.findall(r"^([\w.]+)(?:\s*:|$)", block, re.M) if a not in (t, "Axioms")]
        table[t] = tuple(sorted({a.split(".")[-1] for a in ax}))
groups = {}
for t in names: groups.setdefault(table.get(t), []).append(t)
lines = []
for ax, ts in sorted(groups.items(), key=lambda x: (x[0] is None, x[0] or ())):
    lines.append("* %s (%d theorems): %s" % ("*not found*" if ax is None else ("closed under the global context" if not ax else " + ".join("`%s`" % a for a in ax)), len(ts), ", ".join(sorted(ts))))
d = open(os.path.join(root, "DESIGN.md")).read()
a, b = "<!-- assumptions -->\n", "<!-- /assumptions -->"
i, j = d.index(a) + len(a), d.index(b)
open(os.path.join(root, "DESIGN.md"), "w").write(d[:i] + "\n".join(lines) + "\n" + d[j:])
print(len(table), "theorems")
