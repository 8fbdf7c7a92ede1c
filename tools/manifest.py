"""Rebuild MANIFEST.json: every theorem named Cxx_... in the Properties files,
grouped by property.  A property with a _partial theorem is 'partial'."""
import glob, json, os, re
root = os.path.dirname(os.path.dirname(os.path.abspath(__file__)))
notes = json.load(open(os.path.join(root, "tools", "notes.json")))
thms = {}
for f in sorted(glob.glob(os.path.join(root, "rocq", "theories", "Properties*.v"))):
    for m in re.finditer(r"^Theorem ((C\d+)_\w+)", open(f).read(), re.M):
        thms.setdefault(m.group(2), []).append(m.group(1))
claims = []
for line in open(os.path.join(root, "properties.jsonl")):
    pid = json.loads(line)["id"]
    ts = thms.get(pid, [])
    if not ts:
        print("no theorem:", pid)
        continue
    status = "partial" if any(t.endswith("_partial") for t in ts) or pid in notes.get("partial", {}) else "proved"
    note = notes.get("partial", {}).get(pid) or notes.get("notes", {}).get(pid, "")
    claims.append({"property": pid, "status": status, "theorems": ts, "note": note})
json.dump({"claims": claims}, open(os.path.join(root, "MANIFEST.json"), "w"), indent=1)
print(len(claims), "claims", sum(len(c["theorems"]) for c in claims), "theorems")
