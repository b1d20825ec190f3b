"""Print a table of what `Print Assumptions` reports for every theorem in P_*.v.

Run from /verif/rocq after a build; the output is pasted into DESIGN.md.
"""
import glob
import os
import re
import subprocess
import tempfile

out = {}
for f in sorted(glob.glob("theories/P_*.v")):
    names = re.findall(r"^Print Assumptions (\w+)\.", open(f).read(), re.M)
    with tempfile.TemporaryDirectory() as d:
        target = os.path.join(d, os.path.basename(f) + "o")
        r = subprocess.run(["coqc", "-w", "-all", "-Q", "theories", "Verif", "-o", target, f],
                           capture_output=True, text=True)
    text = r.stdout
    parts = re.split(r"^(?=Closed under|Axioms:)", text, flags=re.M)[1:]
    assert len(parts) == len(names), (f, len(parts), len(names), r.stderr[-500:])
    for n, p in zip(names, parts):
        ax = sorted(set(re.findall(r"^([\w.]+)\s*$|^([\w.]+) :", p, re.M)))
        ax = sorted({a or b for a, b in ax} - {"Axioms"})
        out.setdefault((os.path.basename(f), tuple(a.split(".")[-1] for a in ax)), []).append(n)
print("| file | assumptions | theorems |\n|---|---|---|")
for (f, ax), ns in out.items():
    print("| %s | %s | %s |" % (f, ", ".join(ax) or "none (closed)", ", ".join(ns)))
