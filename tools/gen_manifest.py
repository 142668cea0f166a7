#!/usr/bin/env python3
"""Write MANIFEST.json from the theorem names in rocq/theories/Prop*.v and tools/status.json."""
import collections, glob, json, os, re
root = os.path.dirname(os.path.dirname(os.path.abspath(__file__)))
status = json.load(open(os.path.join(root, "tools", "status.json")))
thms = collections.OrderedDict()
for f in sorted(glob.glob(os.path.join(root, "rocq/theories/Prop*.v"))):
    for m in re.finditer(r"^Theorem\s+(C\d\d)(_\w+)", open(f).read(), re.M):
        thms.setdefault(m.group(1), []).append(m.group(1) + m.group(2))
claims = []
for line in open(os.path.join(root, "properties.jsonl")):
    pid = json.loads(line)["id"]
    st, note = status.get(pid, ["", ""])
    if not st:
        continue
    claims.append({"property": pid, "status": st, "theorems": thms.get(pid, []), "note": note})
    if st in ("proved", "partial"):
        assert thms.get(pid), pid
json.dump({"claims": claims}, open(os.path.join(root, "MANIFEST.json"), "w"), indent=1)
print(len(claims), "claims;", sum(len(t) for t in thms.values()), "theorems")
print("without status:", [p for p in thms if p not in status])
