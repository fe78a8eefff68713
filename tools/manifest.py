#!/usr/bin/env python3
"""Rebuild MANIFEST.json from the theorem names Cxx_... of rocq/theories and notes.json."""
import json, os, re
root = os.path.dirname(os.path.dirname(os.path.abspath(__file__)))
th = os.path.join(root, "rocq", "theories")
names = {}
for f in sorted(os.listdir(th)):
    if f.endswith(".v"):
        for m in re.finditer(r"^\s*(?:Theorem|Corollary)\s+(C\d+)_(\w+)", open(os.path.join(th, f)).read(), re.M):
            names.setdefault(m.group(1), []).append(m.group(1) + "_" + m.group(2))
notes = json.load(open(os.path.join(root, "tools", "notes.json")))
claims = []
for line in open(os.path.join(root, "properties.jsonl")):
    pid = json.loads(line)["id"]
    n = notes.get(pid, {})
    thms = names.get(pid, [])
    if not thms and n.get("status") != "not_applicable":
        continue
    status = n.get("status", "partial" if any(t.endswith("_partial") for t in thms) else "proved")
    claims.append({"property": pid, "status": status, "theorems": thms, "note": n.get("note", "")})
json.dump({"claims": claims}, open(os.path.join(root, "MANIFEST.json"), "w"), indent=1)
print(len(claims), "claims", sum(len(c["theorems"]) for c in claims), "theorems")
