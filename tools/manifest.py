#!/usr/bin/env python3
"""Write MANIFEST.json from the theorem names Cxx_... in rocq/theories/Props_*.v."""
import collections
import glob
import json
import os
import re

ROOT = os.path.dirname(os.path.dirname(os.path.abspath(__file__)))
theorems = collections.defaultdict(list)
for path in sorted(glob.glob(os.path.join(ROOT, "rocq/theories/Props_*.v"))):
    module = os.path.basename(path)[:-2]
    for name in re.findall(r"^Theorem (C\d\d_\w+)", open(path).read(), re.M):
        theorems[name[:3]].append((module, name))
notes = json.load(open(os.path.join(ROOT, "tools/notes.json")))
claims = []
for line in open(os.path.join(ROOT, "properties.jsonl")):
    pid = json.loads(line)["id"]
    names = [n for _, n in theorems.get(pid, [])]
    status, note = notes.get(pid, ["partial", "Not proved yet: no theorem."])
    if not names:
        note = note or "Not proved yet: no theorem."
        if status == "proved":
            raise SystemExit(f"{pid} has no theorem")
    claims.append({"property": pid, "status": status, "theorems": names, "note": note})
with open(os.path.join(ROOT, "MANIFEST.json"), "w") as f:
    f.write('{"claims": [\n')
    f.write(",\n".join("  " + json.dumps(c) for c in claims))
    f.write("\n]}\n")
