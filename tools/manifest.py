#!/usr/bin/env python3
"""Regenerate MANIFEST.json from the theorem names C<nn>_* in rocq/theories/Prop*.v.

A property is "partial" when one of its theorems is a refutation (_refuted) or a
restricted version (_partial); tools/notes.json adds the notes."""
import glob, json, os, re
root = os.path.dirname(os.path.dirname(os.path.abspath(__file__)))
notes = json.load(open(os.path.join(root, "tools", "notes.json")))
thms = {}
for f in sorted(glob.glob(os.path.join(root, "rocq/theories/Prop*.v"))):
    for m in re.finditer(r"^Theorem\s+((C\d\d+)_\w+)", open(f).read(), re.M):
        thms.setdefault(m.group(2), []).append(m.group(1))
ids = [json.loads(l)["id"] for l in open(os.path.join(root, "properties.jsonl"))]
claims = []
for i in ids:
    if i not in thms:
        print("no theorem:", i)
        continue
    st = "partial" if any(re.search(r"_(refuted|partial)$", t) for t in thms[i]) else "proved"
    claims.append({"property": i, "status": st, "theorems": thms[i], "note": notes.get(i, "")})
for k in thms:
    assert k in ids, k
for k in notes:
    assert k in ids, k
json.dump({"claims": claims}, open(os.path.join(root, "MANIFEST.json"), "w"), indent=1)
print(len(claims), "claims,", sum(c["status"] == "proved" for c in claims), "proved")
