#!/usr/bin/env python3
"""Run Print Assumptions on every theorem named in MANIFEST.json and write
ASSUMPTIONS.md.  Needs a finished build in rocq/."""
import json, os, re, subprocess, tempfile

root = os.path.dirname(os.path.dirname(os.path.abspath(__file__)))
names = []
for claim in json.load(open(f"{root}/MANIFEST.json"))["claims"]:
    names += [t for t in claim["theorems"] if t not in names]
mods = [os.path.basename(x)[:-2] for x in open(f"{root}/rocq/_CoqProject").read().split() if x.endswith(".v")]
where = {}
for m in mods:
    text = open(f"{root}/rocq/theories/{m}.v").read()
    for t in re.findall(r"^\s*(?:Theorem|Lemma|Corollary)\s+([\w']+)", text, re.M):
        where.setdefault(t, m)
with tempfile.TemporaryDirectory() as d:
    with open(f"{d}/query.v", "w") as f:
        f.write("From Verif Require " + " ".join(mods) + ".\n")
        f.writelines(f"Print Assumptions {where[t]}.{t}.\n" for t in names)
    out = subprocess.run(["coqc", "-Q", f"{root}/rocq/theories", "Verif", f"{d}/query.v"],
                         capture_output=True, text=True, check=True).stdout
blocks = re.split(r"(?m)^(?=Axioms:|Closed under)", out)[1:]
assert len(blocks) == len(names)
groups = {}
for t, b in zip(names, blocks):
    axioms = tuple(sorted(set(re.findall(r"(?m)^([\w.]+)\s*:", b)) - {"Axioms"}))
    groups.setdefault(axioms, []).append(f"{where[t]}.{t}")
with open(f"{root}/ASSUMPTIONS.md", "w") as f:
    f.write("# Print Assumptions per theorem\n\nGenerated by `tools/assumptions.py` from the built files.\n")
    for axioms, ts in sorted(groups.items(), key=lambda g: (len(g[0]), g[0])):
        f.write("\n## " + (", ".join(f"`{a}`" for a in axioms) or "Closed under the global context") + "\n\n")
        f.writelines(f"* `{t}`\n" for t in ts)
