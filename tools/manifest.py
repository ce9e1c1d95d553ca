#!/usr/bin/env python3
"""Regenerates MANIFEST.json from the theorems named Cxx_... in rocq/theories/Prop_*.v
and the notes below."""
import glob, json, re, os
root = os.path.dirname(os.path.dirname(os.path.abspath(__file__)))
NOTES = json.load(open(os.path.join(root, "tools", "notes.json")))
thms = {}
for f in sorted(glob.glob(os.path.join(root, "rocq/theories/Prop_*.v"))):
    for m in re.finditer(r"^Theorem (C\d\d)_(\w+)", open(f).read(), re.M):
        thms.setdefault(m.group(1), []).append(f"{m.group(1)}_{m.group(2)}")
claims = []
for line in open(os.path.join(root, "properties.jsonl")):
    pid = json.loads(line)["id"]
    names = thms.get(pid, [])
    if not names:
        continue
    refuted = any(n.endswith("_refuted") for n in names)
    partial = any(n.endswith("_partial") for n in names)
    note = NOTES.get(pid, {})
    status = note.get("status", "partial" if partial or refuted else "proved")
    claims.append({"property": pid, "status": status, "theorems": names, "note": note.get("note", "")})
json.dump({"claims": claims}, open(os.path.join(root, "MANIFEST.json"), "w"), indent=1)
open(os.path.join(root, "MANIFEST.json"), "a").write("\n")
