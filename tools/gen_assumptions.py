"""Writes ASSUMPTIONS.md: what Print Assumptions lists for every theorem of Props_*.v (needs a finished build)."""
import glob, os, re, subprocess, tempfile
root = os.path.join(os.path.dirname(os.path.abspath(__file__)), "..")
names = []
for f in sorted(glob.glob(os.path.join(root, "rocq/theories/Props_*.v"))):
    mod = os.path.basename(f)[:-2]
    for t in re.findall(r"^(?:Theorem|Lemma)\s+(\w+)", open(f).read(), re.M):
        names.append((mod, t))
src = "From Verif Require " + " ".join(sorted({m for m, _ in names})) + ".\n"
src += "".join('Print Assumptions Verif.%s.%s.\n' % n for n in names)
with tempfile.TemporaryDirectory() as d:
    p = os.path.join(d, "ass.v")
    open(p, "w").write(src)
    out = subprocess.run(["coqc", "-Q", os.path.join(root, "rocq/theories"), "Verif", p], capture_output=True, text=True, check=True).stdout
blocks = re.split(r"^(?=Axioms:|Closed under the global context)", out, flags=re.M)[1:]
assert len(blocks) == len(names), (len(blocks), len(names))
short = lambda b: tuple(sorted(re.findall(r"^([A-Za-z_][\w.]*)\s*:?$|^([A-Za-z_][\w.]*) :", b.replace("Axioms:", ""), re.M)))
groups = {}
for n, b in zip(names, blocks):
    ax = tuple(sorted({x or y for x, y in short(b)})) if b.startswith("Axioms") else ()
    groups.setdefault(ax, []).append(n)
with open(os.path.join(root, "ASSUMPTIONS.md"), "w") as f:
    f.write("# What `Print Assumptions` lists for each theorem\n\nGenerated by tools/gen_assumptions.py. %d theorems.\n" % len(names))
    for ax, ns in sorted(groups.items(), key=lambda g: (len(g[0]), g[0])):
        f.write("\n## " + (", ".join("`%s`" % a for a in ax) if ax else "Closed under the global context") + " (%d)\n\n" % len(ns))
        for m in sorted({n[0] for n in ns}):
            f.write("* %s: %s\n" % (m, ", ".join(t for k, t in ns if k == m)))
print({k: len(v) for k, v in groups.items()})
