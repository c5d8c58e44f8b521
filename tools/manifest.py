"""Write MANIFEST.json from the theorem names in rocq/theories/T_*.v and tools/notes.json."""
import glob, json, os, re
root = os.path.dirname(os.path.dirname(os.path.abspath(__file__)))
notes = json.load(open(os.path.join(root, "tools/notes.json")))
thms = {}
for f in sorted(glob.glob(os.path.join(root, "rocq/theories/T_*.v"))):
    for m in re.finditer(r"^(?:Theorem|Corollary)\s+(C\d\d+)_(\w+)", open(f).read(), re.M):
        thms.setdefault(m.group(1), []).append(f"{m.group(1)}_{m.group(2)}")
claims = []
for line in open(os.path.join(root, "properties.jsonl")):
    p = json.loads(line)["id"]
    n = notes.get(p, {})
    t = thms.get(p, [])
    if not t:
        continue
    st = n.get("status", "proved")
    claims.append({"property": p, "status": st, "theorems": t, "note": n.get("note", "")})
json.dump({"claims": claims}, open(os.path.join(root, "MANIFEST.json"), "w"), indent=1)
print(len(claims), "claims", sum(len(c["theorems"]) for c in claims), "theorems")
