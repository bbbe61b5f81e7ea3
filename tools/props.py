#!/usr/bin/env python3
"""Single source for properties.jsonl and MANIFEST.json (run: python3 tools/props.py).
Theorem names are collected from rocq/theories/Prop*.v (prefix Cnn_); status and notes come
from the calls to status() in tools/table.py (default: proved when theorems exist)."""
import json, os, re, glob
ROOT = os.path.dirname(os.path.dirname(os.path.abspath(__file__)))
P = []
ST = {}
def prop(id, title, statement, quantifier, why, anchors):
    P.append(dict(id=id, title=title, statement=statement, quantifier=quantifier, why=why, anchors=anchors))
def status(id, st, note=""):
    ST[id] = (st, note)
exec(open(os.path.join(ROOT, "tools", "table.py")).read())
TH = {}
for f in sorted(glob.glob(os.path.join(ROOT, "rocq", "theories", "Prop*.v"))):
    src = open(f).read()
    names = re.findall(r"^Theorem (C\d\d_\w+)", src, re.M)
    for t in names:
        TH.setdefault(t[:3], []).append(t)
    head = src.split("(* BEGIN ASSUMPTIONS *)")[0].rstrip("\n")
    tail = "\n".join("Print Assumptions %s." % t for t in names)
    new = head + "\n\n(* BEGIN ASSUMPTIONS *)\n" + tail + "\n"
    if new != src:
        open(f, "w").write(new)
with open(os.path.join(ROOT, "properties.jsonl"), "w") as f:
    for p in P:
        f.write(json.dumps({"id": p["id"], "title": p["title"], "statement": p["statement"],
                            "quantifier": p["quantifier"], "why_tests_cant": p["why"],
                            "anchors": p["anchors"]}) + "\n")
claims = []
for p in P:
    th = TH.get(p["id"], [])
    st, note = ST.get(p["id"], ("proved" if th else "not_applicable", "" if th else "not modelled yet"))
    claims.append({"property": p["id"], "status": st, "theorems": th, "note": note})
with open(os.path.join(ROOT, "MANIFEST.json"), "w") as f:
    json.dump({"claims": claims}, f, indent=1)
    f.write("\n")
ids = {p["id"] for p in P}
print("unknown ids:", sorted(set(TH) - ids))
print(len(P), "properties;", sum(c["status"] == "proved" for c in claims), "proved;",
      sum(c["status"] == "partial" for c in claims), "partial;", sum(len(c["theorems"]) for c in claims), "theorems")
