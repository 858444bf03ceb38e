#!/usr/bin/env python3
"""Regenerate MANIFEST.json: collect the theorems named Cxx_... from the Prop*.v files
and attach the status and note kept in tools/status.json."""
import glob, json, os, re
root = os.path.dirname(os.path.dirname(os.path.abspath(__file__)))
thms = {}
for f in sorted(glob.glob(root + '/rocq/theories/Prop*.v')):
    src = re.sub(r'\(\*.*?\*\)', '', open(f).read(), flags=re.S)
    for m in re.finditer(r'^\s*Theorem\s+(C\d\d)(_\w+)', src, flags=re.M):
        thms.setdefault(m.group(1), []).append(m.group(1) + m.group(2))
status = json.load(open(root + '/tools/status.json'))
claims = []
for line in open(root + '/properties.jsonl'):
    pid = json.loads(line)['id']
    if pid in status and pid in thms:
        st = status[pid]
        claims.append({"property": pid, "status": st["status"], "theorems": thms[pid], "note": st["note"]})
    elif pid in status and status[pid]["status"] == "not_applicable":
        claims.append({"property": pid, "status": "not_applicable", "theorems": [], "note": status[pid]["note"]})
    elif pid in thms:
        print("no status for", pid)
json.dump({"claims": claims}, open(root + '/MANIFEST.json', 'w'), indent=1)
print(len(claims), "claims", sum(len(c["theorems"]) for c in claims), "theorems")

# tables of DESIGN.md
how = json.load(open(root + '/tools/how.json'))
rows = ["## Properties", "", "| id | property | status | modelled and proved how | theorems |", "|---|---|---|---|---|"]
by = {c["property"]: c for c in claims}
for line in open(root + '/properties.jsonl'):
    p = json.loads(line)
    c = by.get(p["id"])
    rows.append("| %s | %s | %s | %s | %s |" % (p["id"], p["title"].replace("|", "/"), c["status"] if c else "open",
        how.get(p["id"], ""), " ".join("`%s`" % t for t in c["theorems"]) if c else ""))
ass = ["* %s: %s" % (c["property"], ", ".join("`%s`" % t for t in c["theorems"])) for c in claims if c["theorems"]]
d = open(root + '/DESIGN.md').read()
for tag, body in (("properties", rows), ("assumptions", ass)):
    a, b = "<!-- %s:begin -->" % tag, "<!-- %s:end -->" % tag
    d = d[:d.index(a) + len(a)] + "\n" + "\n".join(body) + "\n" + d[d.index(b):]
open(root + '/DESIGN.md', 'w').write(d)
