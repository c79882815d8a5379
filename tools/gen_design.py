#!/usr/bin/env python3
"""DESIGN.md = tools/design_head.md + tools/design_tail.md + coverage (from M_*.v headers) + ASSUMPTIONS.md."""
import glob, re, os, json
root = os.path.dirname(os.path.dirname(os.path.abspath(__file__)))
rd = lambda f: open(root + "/" + f).read()
out = rd("tools/design_head.md").rstrip() + "\n" + rd("tools/design_tail.md")
out += "\n## Properties: what is proved and what is missing\n\n| id | title | where | remarks |\n|---|---|---|---|\n"
notes = json.loads(rd("tools/notes.json"))
where = {}
for f in sorted(glob.glob(root + "/rocq/theories/P_*.v")):
    for m in re.finditer(r"^ *Theorem (C\d\d+)", open(f).read(), re.M): where.setdefault(m.group(1), os.path.basename(f))
for l in open(root + "/properties.jsonl"):
    p = json.loads(l)
    out += "| %s | %s | %s | %s |\n" % (p["id"], p["title"], where.get(p["id"], "-"), notes.get(p["id"], {}).get("note", "Proved in full for the model.").replace("|", "\\|"))
out += "\n## Parts of the code that are modelled\n\n"
for f in sorted(glob.glob(root + "/rocq/theories/M_*.v")):
    s = open(f).read(); m = re.match(r"\(\*\*(.*?)\*\)", s, re.S)
    cites = sorted(set(re.findall(r"[\w/]+\.(?:cpp|hpp)", s)))
    out += "* `%s` – %s %s\n" % (os.path.basename(f), " ".join(m.group(1).split()), ("Cites: " + ", ".join("`%s`" % c for c in cites) + ".") if cites else "")
out += "\n" + rd("tools/design_not.md")
out += "\n" + rd("ASSUMPTIONS.md").replace("# What", "## What", 1).replace("\n## P_", "\n### P_")
open(root + "/DESIGN.md", "w").write(out)
