#!/usr/bin/env python3
"""Writes what Print Assumptions lists for every theorem of MANIFEST.json between the two marks of DESIGN.md.
   Run after `make` in rocq/."""
import json, os, re, subprocess, tempfile, collections
root = os.path.dirname(os.path.dirname(os.path.abspath(__file__)))
claims = json.load(open(os.path.join(root, "MANIFEST.json")))["claims"]
th = os.path.join(root, "rocq", "theories")
where = {}
for f in sorted(os.listdir(th)):
    if f.endswith(".v"):
        for x in re.finditer(r"^\s*(?:Theorem|Lemma|Corollary)\s+([\w']+)", open(os.path.join(th, f)).read(), re.M):
            if f.startswith("Prop") or x.group(1) not in where: where[x.group(1)] = f[:-2]
names = [t for c in claims for t in c["theorems"]]
mods = sorted({where[n] for n in names})
with tempfile.TemporaryDirectory() as d:
    p = os.path.join(d, "a.v")
    with open(p, "w") as g:
        for m in mods: g.write("From Verif Require %s.\n" % m)
        for n in names: g.write('Goal True. idtac "@@ %s". exact I. Qed.\nPrint Assumptions Verif.%s.%s.\n' % (n, where[n], n))
    out = subprocess.run(["coqc", "-Q", th, "Verif", p], capture_output=True, text=True)
    if out.returncode: raise SystemExit(out.stderr[-2000:])
groups = collections.OrderedDict()
for block in out.stdout.split("@@ ")[1:]:
    name, rest = block.split("\n", 1)
    ax = () if "Closed under" in rest else tuple(sorted(x.group(1) for x in re.finditer(r"^([A-Z][\w.]*)(?: :|$)", rest, re.M)))
    groups.setdefault(ax, []).append(name.strip())
assert sum(map(len, groups.values())) == len(names)
text = ""
for ax in sorted(groups, key=lambda a: (len(a), a)):
    text += "\n**" + ("Closed under the global context (no axiom)" if not ax else ", ".join("`%s`" % a for a in ax)) + "** (%d theorems):\n" % len(groups[ax])
    text += "\n".join(" ".join(groups[ax][i:i + 6]) for i in range(0, len(groups[ax]), 6)) + "\n"
p = os.path.join(root, "DESIGN.md")
s = open(p).read()
a, b = "<!-- assumptions -->\n", "<!-- end of assumptions -->\n"
if a not in s: s += "\n" + a + b
i, j = s.index(a) + len(a), s.index(b)
open(p, "w").write(s[:i] + text + s[j:])
print({k: len(v) for k, v in groups.items()})
