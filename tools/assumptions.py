#!/usr/bin/env python3
"""Run Print Assumptions on every theorem of MANIFEST.json (after a build) and write ASSUMPTIONS.md."""
import json, os, re, sys, subprocess, glob
root = os.path.dirname(os.path.dirname(os.path.abspath(__file__)))
claims = json.load(open(root + "/MANIFEST.json"))["claims"]
want = [t for c in claims for t in c["theorems"]]
where = {}
for f in sorted(glob.glob(root + "/rocq/theories/Props_*.v")):
    for m in re.finditer(r"^(?:Theorem|Corollary) (C\d+_\w+)", open(f).read(), re.M):
        where[m[1]] = os.path.basename(f)[:-2]
got = {}
# "assumptions.py Module ..." re-runs those modules only and keeps the other lines of ASSUMPTIONS.md
only = set(sys.argv[1:])
if only:
    for head, body in re.findall(r"^## (.*)\n\n\d+ theorems: (.*)$", open(root + "/ASSUMPTIONS.md").read(), re.M):
        for t in body.split(", "):
            got[t] = re.findall(r"`([^`]+)`", head)
for mod in sorted(set(where[t] for t in want)):
    if only and mod not in only: continue
    names = [t for t in want if where[t] == mod]
    src = f"Require Import Coq.Strings.String Verif.{mod}.\n" + "\n".join(f'Check "MARK{n}"%string. Print Assumptions Verif.{mod}.{n}.' for n in names)
    os.makedirs("/tmp/as", exist_ok=True)
    open(f"/tmp/as/q_{mod}.v", "w").write(src)
    o = subprocess.run(["coqc", "-Q", root + "/rocq/theories", "Verif", f"/tmp/as/q_{mod}.v"], capture_output=True, text=True)
    assert o.returncode == 0, o.stderr
    parts = re.split(r'"MARK(\w+)"(?:%string)?\s*:\s*[\w.]*string', o.stdout)
    for i in range(1, len(parts), 2):
        ax = sorted(set(re.findall(r"^([A-Za-z_][\w.']*)\s*(?::|$)", parts[i + 1], re.M)) - {"Axioms", "Closed"})
        got[parts[i]] = ax
groups = {}
for t in want:
    groups.setdefault(tuple(got[t]), []).append(t)
with open(root + "/ASSUMPTIONS.md", "w") as f:
    f.write("# What `Print Assumptions` lists for each theorem\n\nGenerated by tools/assumptions.py from a build; theorems with the same list are grouped.\n")
    for ax, ts in sorted(groups.items(), key=lambda p: (len(p[0]), p[0])):
        f.write("\n## " + (", ".join(f"`{a}`" for a in ax) if ax else "Closed under the global context (no axioms)") + f"\n\n{len(ts)} theorems: " + ", ".join(ts) + "\n")
print({len(k): len(v) for k, v in groups.items()})
