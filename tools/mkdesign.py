#!/usr/bin/env python3
"""Writes /verif/DESIGN.md (needs a finished build)."""
import json, os, re, subprocess, glob
root = os.path.dirname(os.path.dirname(os.path.abspath(__file__)))
run = lambda t: subprocess.run(["python3", root + "/tools/" + t], capture_output=True, text=True, check=True).stdout
out = open(root + "/tools/design_head.md").read()
where = {}
for f in glob.glob(root + "/rocq/theories/Props*.v"):
    for n in re.findall(r"^Theorem\s+([\w']+)", open(f).read(), re.M):
        where[n] = os.path.basename(f)[:-2]
props = {}
for l in open(root + "/properties.jsonl"):
    q = json.loads(l)
    props[q["id"]] = q
out += "\n## Property by property\n\n| property | title | status | theorems | note |\n|---|---|---|---|---|\n"
for c in json.load(open(root + "/MANIFEST.json"))["claims"]:
    fs = sorted({where[t] for t in c["theorems"]})
    out += "| %s | %s | %s | %s: %s | %s |\n" % (c["property"], props[c["property"]]["title"].replace("|", "\\|"), c["status"],
        ", ".join(fs), ", ".join(c["theorems"]), c["note"].replace("|", "\\|"))
out += "\n## Print Assumptions\n\n" + run("assumptions.py")
out += "\n## Functions of the package and definitions citing them\n\n"
out += "A dash means that no definition cites the function; see above for the reasons.\n\n```\n" + run("coverage.py") + "```\n"
open(root + "/DESIGN.md", "w").write(out)
