#!/usr/bin/env python3
"""Collects the results of the mutation runs (/tmp/mut/out*.jsonl) into seeded/LOG.jsonl."""
import json, glob, re, pathlib
root = pathlib.Path(__file__).resolve().parent.parent
src = "\n".join(p.read_text() for p in sorted((root/"rocq/theories").glob("P_*.v")))
names = set(re.findall(r"^ *Theorem\s+(\w+)", src, re.M))
notes = json.loads((root/"tools/log_notes.json").read_text()) if (root/"tools/log_notes.json").exists() else {}
def fix(n):
    n = notes.get("rename", {}).get(n, n)
    for c in (n, n[:-8] if n.endswith("_partial") else n):
        if c in names: return c
    return n
tight = {"m016": ["C09_any_operation","C09_initial_value"], "m027": ["C13_class_tests"]}
tight.update(notes.get("tightened", {}))
text = notes.get("notes", {})
rows = []
for f in sorted(glob.glob("/tmp/mut/out*.jsonl")):
    for l in open(f):
        d = json.loads(l); m = d["mut"]
        if d.get("invalid") or d["id"] in notes.get("drop", []): continue
        failed = sorted({fix(x) for x in d["failed"]})
        row = {"id": d["id"], "file": "theories/%s.v" % m["file"], "definition": m["defn"], "edit": m["edit"],
               "old": m["old"], "new": m["new"], "claim_broken": notes.get("claims", {}).get(d["id"], m["claims"]), "theorems_failed": failed,
               "theorems_tightened": tight.get(d["id"], [])}
        if d["id"] in text: row["note"] = text[d["id"]]
        rows.append(row)
rows.sort(key=lambda r: r["id"])
miss = [(r["id"], r["claim_broken"]) for r in rows if not any(t.split("_")[0] in r["claim_broken"] for t in r["theorems_failed"])]
(root/"seeded/LOG.jsonl").write_text("".join(json.dumps(r)+"\n" for r in rows))
print(len(rows), "rows; claim not hit:", miss)
print("unknown names:", sorted({t for r in rows for t in r["theorems_failed"]} - names))
