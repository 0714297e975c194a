#!/usr/bin/env python3
"""Write MANIFEST.json from the theorems found in rocq/theories/Prop*.v and the
notes below.  Theorem names ending in `_partial` make a claim partial unless
STATUS overrides it."""
import re, json, pathlib
V = pathlib.Path(__file__).resolve().parent.parent
ids = [json.loads(l)["id"] for l in (V / "properties.jsonl").read_text().split("\n") if l.strip()]
thms = {}
for f in sorted((V / "rocq/theories").glob("Prop[A-Z]*.v")):
    for n in re.findall(r"^Theorem (C\d\d+_\w+)", f.read_text(), re.M):
        thms.setdefault(n.split("_")[0], []).append(n)
notes = json.loads((V / "tools/notes.json").read_text())
claims = []
for i in ids:
    ts = thms.get(i, [])
    st, note = notes.get(i, ["", ""])
    if not ts:
        continue
    if not st:
        st = "partial" if any(t.endswith("_partial") for t in ts) else "proved"
    claims.append({"property": i, "status": st, "theorems": ts, "note": note})
(V / "MANIFEST.json").write_text(json.dumps({"claims": claims}, indent=1) + "\n")
print(len(claims), "claims;", sum(len(c["theorems"]) for c in claims), "theorems; missing", [i for i in ids if i not in thms])
