"""Regenerates MANIFEST.json from the theorem names in rocq/theories/*Props*.v.

A theorem named C<nn>_... belongs to property C<nn>. Notes and non-default
statuses are in tools/notes.json: {"C01": {"status": "...", "note": "..."}}.
Properties without a theorem are left out of the manifest."""
import glob, json, os, re
root = os.path.dirname(os.path.dirname(os.path.abspath(__file__)))
notes = json.load(open(os.path.join(root, "tools", "notes.json")))
thms = {}
for f in sorted(glob.glob(os.path.join(root, "rocq", "theories", "*Props*.v"))):
    for m in re.finditer(r"^\s*Theorem (C\d+)_(\w+)", open(f).read(), re.M):
        thms.setdefault(m.group(1), []).append(m.group(1) + "_" + m.group(2))
claims, missing = [], []
for line in open(os.path.join(root, "properties.jsonl")):
    p = json.loads(line)["id"]
    n = notes.get(p, {})
    if p not in thms:
        missing.append(p)
        continue
    status = n.get("status", "partial" if any(t.endswith("_partial") for t in thms[p]) else "proved")
    claims.append({"property": p, "status": status, "theorems": thms[p], "note": n.get("note", "")})
with open(os.path.join(root, "MANIFEST.json"), "w") as f:
    f.write('{"claims": [\n' + ",\n".join(json.dumps(c) for c in claims) + "\n]}\n")
print(len(claims), "claims;", sum(len(c["theorems"]) for c in claims), "theorems; missing:", " ".join(missing))
