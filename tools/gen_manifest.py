#!/usr/bin/env python3
"""Regenerate rocq/_CoqProject and MANIFEST.json from the theory files.

A property is "proved" when none of its theorems is named *_partial or *_refuted, else "partial"."""
import glob, json, os, re
root = os.path.dirname(os.path.dirname(os.path.abspath(__file__)))
th = os.path.join(root, "rocq", "theories")
order = {"Lib": 0, "Spec": 1, "Model": 2, "Proofs": 3, "Props": 4}
files = sorted((os.path.relpath(f, os.path.join(root, "rocq")) for f in glob.glob(th + "/*/*.v")),
               key=lambda f: (order[f.split("/")[1]], f))
with open(os.path.join(root, "rocq", "_CoqProject"), "w") as o:
    o.write("-Q theories Verif\n" + "".join(f + "\n" for f in files))

props = [json.loads(l) for l in open(os.path.join(root, "properties.jsonl"))]
thms = {}
for f in files:
    if "/Props/" not in f:
        continue
    for m in re.finditer(r"^Theorem (C\d\d+)_(\w+)", open(os.path.join(root, "rocq", f)).read(), re.M):
        thms.setdefault(m.group(1), []).append(m.group(1) + "_" + m.group(2))
notes = json.load(open(os.path.join(root, "tools", "notes.json")))
claims = []
for p in props:
    i = p["id"]
    t = thms.get(i, [])
    if i in notes and notes[i].startswith("NA:"):
        st = "not_applicable"
    elif not t:
        continue
    else:
        st = "partial" if any(x.endswith(("_partial", "_refuted")) for x in t) else "proved"
    claims.append({"property": i, "status": st, "theorems": t, "note": notes.get(i, "")})
json.dump({"claims": claims}, open(os.path.join(root, "MANIFEST.json"), "w"), indent=1)
print({s: sum(c["status"] == s for c in claims) for s in ("proved", "partial", "not_applicable")},
      "missing:", [p["id"] for p in props if p["id"] not in {c["property"] for c in claims}])
