#!/usr/bin/env python3
"""Rewrites the table of Print Assumptions results in DESIGN.md (between the two markers).
Needs a built tree in rocq/."""
import glob, os, re, subprocess
ROOT = os.path.dirname(os.path.dirname(os.path.abspath(__file__)))
rows = []
os.makedirs("/tmp/assum", exist_ok=True)
for p in sorted(glob.glob(ROOT + "/rocq/theories/*/Properties*.v")):
    src = open(p).read()
    names = re.findall(r"^Print Assumptions\s+([A-Za-z0-9_']+)\.", src, re.M)
    out = "/tmp/assum/" + os.path.basename(p) + "o"
    r = subprocess.run(["coqc", "-Q", "theories", "Verif", "-o", out, os.path.relpath(p, ROOT + "/rocq")], cwd=ROOT + "/rocq", capture_output=True, text=True)
    blocks = re.split(r"^(?=Closed under the global context|Axioms:)", r.stdout, flags=re.M)[1:]
    assert len(blocks) == len(names), (p, len(blocks), len(names), r.stderr[-300:])
    for n, b in zip(names, blocks):
        ax = sorted(set(x.split(".")[-1] for x in re.findall(r"^([A-Za-z0-9_.']+)\s*(?::|$)", b, re.M) if x != "Axioms" and not b.startswith("Closed")))
        rows.append((n, ", ".join(ax)))
def key(r):
    return (r[0][:3], r[0])
kinds = {}
for n, a in sorted(rows, key=key):
    kinds.setdefault(a, []).append(n)
t = ""
for a in sorted(kinds, key=lambda a: (len(a), a)):
    t += "* %s: %s.\n\n" % ("closed under the global context" if not a else "`" + "`, `".join(a.split(", ")) + "`", ", ".join(kinds[a]))
d = open(ROOT + "/DESIGN.md").read()
b, e = "<!-- assumptions -->\n", "<!-- end assumptions -->\n"
i, j = d.index(b) + len(b), d.index(e)
open(ROOT + "/DESIGN.md", "w").write(d[:i] + t + d[j:])
print(len(rows), "theorems", {a: len(v) for a, v in kinds.items()})
