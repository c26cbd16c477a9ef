#!/usr/bin/env python3
"""Writes MANIFEST.json from the theorems found in rocq/theories/P*.v and tools/status.json."""
import glob, json, os, re
root = os.path.dirname(os.path.dirname(os.path.abspath(__file__)))
thms = {}
for f in sorted(glob.glob(root + "/rocq/theories/P*.v")):
    if os.path.basename(f) == "Py.v":
        continue
    for m in re.finditer(r"^\s*(?:Theorem|Lemma|Corollary)\s+(C\d\d+)(_\w+)", open(f).read(), re.M):
        thms.setdefault(m.group(1), []).append(m.group(1) + m.group(2))
status = json.load(open(root + "/tools/status.json"))
claims = []
for line in open(root + "/properties.jsonl"):
    p = json.loads(line)["id"]
    st, note, *extra = status.get(p, [None, ""])
    ts = thms.get(p, []) + [t for l in extra for t in l]
    if st is None:
        if not ts:
            continue
        st = "partial" if any(t.endswith(("_partial", "_refuted")) for t in ts) else "proved"
    claims.append({"property": p, "status": st, "theorems": ts, "note": note})
json.dump({"claims": claims}, open(root + "/MANIFEST.json", "w"), indent=1)
print(len(claims), "claims,", sum(len(c["theorems"]) for c in claims), "theorems")
for c in claims:
    if not c["note"]: print("no note:", c["property"], c["status"])
