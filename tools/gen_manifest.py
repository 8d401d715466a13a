#!/usr/bin/env python3
"""Rewrite MANIFEST.json from the Cnn_ theorems in rocq/theories/Prop*.v and tools/status.json.

tools/status.json maps a property id to [status, note].  Properties that have
theorems but no entry there are an error, so that nothing is claimed silently.
"""
import glob, json, os, re
root = os.path.join(os.path.dirname(os.path.abspath(__file__)), "..")
thms = {}
for f in sorted(glob.glob(os.path.join(root, "rocq/theories/Prop*.v"))):
    for m in re.finditer(r"^Theorem\s+(C\d\d)(\w*)", open(f).read(), re.M):
        thms.setdefault(m.group(1), []).append(m.group(1) + m.group(2))
status = json.load(open(os.path.join(root, "tools/status.json")))
props = [json.loads(l)["id"] for l in open(os.path.join(root, "properties.jsonl"))]
claims = []
for p in props:
    if p in status:
        s, note = status[p]
        claims.append({"property": p, "status": s, "theorems": thms.get(p, []), "note": note})
    elif p in thms:
        raise SystemExit("no status for " + p)
out = "{\"claims\": [\n" + ",\n".join(json.dumps(c) for c in claims) + "\n]}\n"
open(os.path.join(root, "MANIFEST.json"), "w").write(out)
print(len(claims), "claims")
