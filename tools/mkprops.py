#!/usr/bin/env python3
"""Regenerates properties.jsonl from tools/props_*.py (ids are assigned in order)."""
import glob, json, os, runpy
here = os.path.dirname(os.path.abspath(__file__))
rows = []
for f in sorted(glob.glob(os.path.join(here, "props_*.py"))):
    rows += runpy.run_path(f)["P"]
with open(os.path.join(here, "..", "properties.jsonl"), "w") as out:
    for i, r in enumerate(rows, 1):
        out.write(json.dumps(dict(id=f"C{i:02d}", **r)) + "\n")
print(len(rows))
