#!/usr/bin/env python3
"""Regenerates /verif/MANIFEST.json from the theorem names in theories/Props."""
import json, os, re, glob
ROOT = os.path.dirname(os.path.dirname(os.path.abspath(__file__)))
NOTES = json.load(open(os.path.join(ROOT, "tools", "notes.json")))
props = [json.loads(l)["id"] for l in open(os.path.join(ROOT, "properties.jsonl"))]
th = {}
for f in sorted(glob.glob(os.path.join(ROOT, "rocq/theories/Props/*.v"))):
    for m in re.finditer(r"^\s*(?:Theorem|Corollary|Lemma)\s+((C\d+)_\w+)", open(f).read(), re.M):
        th.setdefault(m.group(2), []).append(m.group(1))
claims = []
for p in props:
    if p not in th and p not in NOTES:
        continue
    n = NOTES.get(p, {})
    names = th.get(p, [])
    status = n.get("status") or ("partial" if any(x.endswith(("_partial", "_refuted")) for x in names) else "proved")
    claims.append({"property": p, "status": status, "theorems": names, "note": n.get("note", "")})
with open(os.path.join(ROOT, "MANIFEST.json"), "w") as o:
    o.write('{"claims": [\n' + ",\n".join(" " + json.dumps(c) for c in claims) + "\n]}\n")
missing = [p for p in props if p not in {c["property"] for c in claims}]
print("claims", len(claims), "missing", missing)
