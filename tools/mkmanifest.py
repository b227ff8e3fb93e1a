"""Writes MANIFEST.json: theorem names are taken from the Prop*.v files by their Cnn_ prefix."""
import json, re, glob, os
root = os.path.dirname(os.path.dirname(os.path.abspath(__file__)))
props = [json.loads(l)["id"] for l in open(f"{root}/properties.jsonl")]
thms = {p: [] for p in props}
for f in sorted(glob.glob(f"{root}/rocq/theories/Prop*.v")):
    for n in re.findall(r"^Theorem\s+(\w+)", open(f).read(), re.M):
        thms[n.split("_")[0]].append(n)
notes = json.load(open(f"{root}/tools/notes.json"))
claims = []
for p in props:
    if not thms[p]:
        continue
    part = any(n.endswith("_partial") or n.endswith("_refuted") for n in thms[p])
    claims.append({"property": p, "status": "partial" if part else "proved",
                   "theorems": thms[p], "note": notes.get(p, "")})
json.dump({"claims": claims}, open(f"{root}/MANIFEST.json", "w"), indent=1)
print(len(claims), "claims of", len(props), "missing", [p for p in props if not thms[p]])
