"""Regenerate MANIFEST.json from the theorem names in rocq/theories/Props*.v and the notes below."""
import json, re, glob, os
root = os.path.dirname(os.path.dirname(os.path.abspath(__file__)))
notes = json.load(open(os.path.join(root, "tools", "notes.json")))
props = [json.loads(l) for l in open(os.path.join(root, "properties.jsonl"))]
thms = {}
for f in sorted(glob.glob(os.path.join(root, "rocq/theories/Props*.v"))):
    for m in re.finditer(r"^Theorem\s+((C\d+)_\w+)", open(f).read(), re.M):
        thms.setdefault(m.group(2), []).append(m.group(1))
claims = []
for p in props:
    t = thms.get(p["id"], [])
    n = notes.get(p["id"], {})
    if not t:
        status = n.get("status", "partial"); 
    elif any("_partial" in x or "_refuted" in x for x in t):
        status = "partial"
    else:
        status = n.get("status", "proved")
    note = n.get("note", "")
    if not t:
        note = note or "not yet modelled"
    claims.append({"property": p["id"], "status": status, "theorems": t, "note": note})
json.dump({"claims": claims}, open(os.path.join(root, "MANIFEST.json"), "w"), indent=1)
print({s: sum(c["status"] == s for c in claims) for s in ("proved", "partial", "not_applicable")},
      "without theorems:", [c["property"] for c in claims if not c["theorems"]])
