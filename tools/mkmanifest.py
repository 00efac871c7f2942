#!/usr/bin/env python3
"""Write MANIFEST.json; every theorem named Cnn_* in Props_*.v is listed under
property Cnn.  Status and notes are kept here."""
import glob, json, re, os
root = os.path.dirname(os.path.dirname(os.path.abspath(__file__)))
STATUS = json.load(open(os.path.join(root, "tools", "status.json")))
thms = {}
for f in sorted(glob.glob(os.path.join(root, "rocq/theories/Props_*.v"))):
    for m in re.finditer(r"^Theorem (C\d\d)_(\w+)", open(f).read(), re.M):
        thms.setdefault(m.group(1), []).append(m.group(1) + "_" + m.group(2))
props = [json.loads(l)["id"] for l in open(os.path.join(root, "properties.jsonl"))]
claims = []
for p in props:
    st, note = STATUS.get(p, ["partial", "not yet proved"])
    claims.append({"property": p, "status": st, "theorems": thms.get(p, []), "note": note})
    if not thms.get(p) and st == "proved":
        print("no theorem for", p)
json.dump({"claims": claims}, open(os.path.join(root, "MANIFEST.json"), "w"), indent=1)
print({s: sum(c["status"] == s for c in claims) for s in ("proved", "partial", "not_applicable")})
