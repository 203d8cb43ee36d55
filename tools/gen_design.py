#!/usr/bin/env python3
"""DESIGN.md = tools/design_head.md + table (property, theorems, axioms).
Axioms are read from the output of Print Assumptions (run after a build)."""
import json, re, subprocess, pathlib
root = pathlib.Path(__file__).resolve().parent.parent
th = root/"rocq/theories"
ax = {}  # compiled into a scratch directory so that the build is not disturbed
pathlib.Path("/tmp/dz").mkdir(exist_ok=True)
for f in sorted(th.glob("P_*.v")):
    src = f.read_text()
    names = re.findall(r"^Print Assumptions (\w+)\.", src, re.M)
    cache = pathlib.Path("/tmp/dz/%s.%d" % (f.name, f.with_suffix(".vo").stat().st_mtime_ns))  # per compiled file
    if not cache.exists():
        cache.write_text(subprocess.run(["coqc","-Q",".","Verif","-o","/tmp/dz/"+f.name+"o",f.name],cwd=th,capture_output=True,text=True).stdout)
    out = cache.read_text()
    blocks = re.findall(r"Closed under the global context|Axioms:\n(?:.+\n?)+?(?=Closed under|Axioms:|\Z)", out)
    assert len(blocks) == len(names), (f, len(blocks), len(names))
    for n, b in zip(names, blocks):
        ax[n] = sorted(set(re.findall(r"^([\w.]+)(?= :|\n +:|$)", b, re.M)) - {"Axioms:"}) if b.startswith("Axioms") else []
props = {json.loads(l)["id"]: json.loads(l) for l in open(root/"properties.jsonl")}
man = json.load(open(root/"MANIFEST.json"))["claims"]
seen = set()
def short(n):
    if n not in ax: return "?"
    a = ax[n]; seen.update(a)
    if not a: return "none"
    return "R+C" if any(x.endswith("classic") for x in a) else "R"
rows = ["## Properties, theorems, axioms\n", "| Id | Property | Status | Theorems (axioms) |", "|---|---|---|---|"]
for c in man:
    t = ", ".join("`%s` (%s)" % (n, short(n)) for n in c["theorems"])
    rows.append("| %s | %s | %s | %s |" % (c["property"], props[c["property"]]["title"], c["status"], t))
(root/"DESIGN.md").write_text((root/"tools/design_head.md").read_text() + "\n".join(rows) + "\n")
print("axioms seen:", sorted(seen)); print("no Print Assumptions:", [n for c in man for n in c["theorems"] if n not in ax])
