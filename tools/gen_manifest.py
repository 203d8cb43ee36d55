#!/usr/bin/env python3
"""Writes MANIFEST.json from the table below; theorem names are checked to exist."""
import json, re, pathlib
root = pathlib.Path(__file__).resolve().parent.parent
src = "\n".join(p.read_text() for p in sorted((root/"rocq/theories").glob("P_*.v")))
names = re.findall(r"^ *Theorem\s+(\w+)", src, re.M)
C = {}
def c(pid, status, note=""):
    th = [n for n in names if n.startswith(pid+"_")]
    assert th, pid
    C[pid] = {"property": pid, "status": status, "theorems": th, "note": note}
exec((root/"tools/claims.py").read_text())
unused = [n for n in names if n.split("_")[0] not in C]
if unused: print("theorems without claim:", unused)
(root/"MANIFEST.json").write_text(json.dumps({"claims": [C[k] for k in sorted(C, key=lambda k: int(k[1:]))]}, indent=1)+"\n")
print(len(C), "claims,", len(names), "theorems")
