#!/usr/bin/env python3
"""Regenerates MANIFEST.json: every theorem cNN_* in rocq/theories/*Props.v is listed under property CNN.
Status and notes come from tools/notes.json ({"C09": ["proved", "note"], ...})."""
import json, re, pathlib
root = pathlib.Path(__file__).resolve().parent.parent
notes = json.loads((root / "tools/notes.json").read_text())
thms = {}
for f in sorted((root / "rocq/theories").glob("*Props.v")):
    for m in re.finditer(r"^\s*Theorem\s+((c\d+)_\w+)", f.read_text(), re.M):
        thms.setdefault(m.group(2).upper(), []).append(m.group(1))
claims = []
for line in (root / "properties.jsonl").read_text().splitlines():
    pid = json.loads(line)["id"]
    if pid not in thms and pid not in notes:
        continue
    st, note = notes.get(pid, ["proved", ""])
    claims.append({"property": pid, "status": st, "theorems": thms.get(pid, []), "note": note})
(root / "MANIFEST.json").write_text(json.dumps({"claims": claims}, indent=1) + "\n")
print(len(claims), "claims;", sum(len(c["theorems"]) for c in claims), "theorems; missing notes:", [c["property"] for c in claims if c["property"] not in notes])
