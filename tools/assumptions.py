#!/usr/bin/env python3
"""Fill section 6 of DESIGN.md with what `Print Assumptions` reports for every property theorem.
Run in a built tree: python3 tools/assumptions.py [T_File.v ...]; with arguments only these files are checked and the
entries of the others are kept."""
import glob, os, re, subprocess, sys
from concurrent.futures import ThreadPoolExecutor
ROOT = os.path.join(os.path.dirname(os.path.abspath(__file__)), "..")
p = os.path.join(ROOT, "DESIGN.md")
s = open(p).read()
head, old = s.split("## 6. Assumptions per theorem", 1)
sets = {}
def compile(f):
    return subprocess.run(["coqc", "-q", "-Q", "theories", "Verif", "theories/" + os.path.basename(f)],
                          cwd=os.path.join(ROOT, "rocq"), stdout=subprocess.PIPE, stderr=subprocess.DEVNULL).stdout.decode()
files = sorted(glob.glob(os.path.join(ROOT, "rocq/theories/T_*.v")))
if sys.argv[1:]:
    files = [f for f in files if os.path.basename(f) in sys.argv[1:]]
    redo = {n for f in files for n in re.findall(r"Print Assumptions ([\w']+)\.", open(f).read())}
    known = re.findall(r"^\d+\. `(.*)`$", old, flags=re.M)
    for a, ns in re.findall(r"^\*\*(?:axioms )?(.*?)\*\* \(\d+ theorems\): (.*)$", old, flags=re.M):
        ax = () if a == "none" else tuple(sorted(known[int(i) - 1] for i in a.split(", ")))
        sets[ax] = [n for n in re.findall(r"`([^`]*)`", ns) if n not in redo]
for f, out in zip(files, ThreadPoolExecutor(4).map(compile, files)):
    names = re.findall(r"Print Assumptions ([\w']+)\.", open(f).read())
    blocks = re.split(r"(?=^Closed under the global context|^Axioms:)", out, flags=re.M)[1:]
    assert len(blocks) == len(names), f
    for n, b in zip(names, blocks):
        ax = [] if b.startswith("Closed") else re.findall(r"^([A-Za-z_][\w.']*)\s*:", b, flags=re.M)
        ax = tuple(sorted(a for a in ax if a != "Axioms"))
        sets.setdefault(ax, []).append(n)
every = sorted({a for ax in sets for a in ax})
txt = "## 6. Assumptions per theorem\n\nAs reported by `Print Assumptions` (regenerate with `tools/assumptions.py`). Axioms that occur at all:\n\n"
for i, a in enumerate(every):
    txt += "%d. `%s`\n" % (i + 1, a)
for ax, ns in sorted(sets.items(), key=lambda p: len(p[0])):
    txt += "\n**%s** (%d theorems): %s\n" % (
        "none" if not ax else "axioms " + ", ".join(str(every.index(a) + 1) for a in ax), len(ns), ", ".join("`%s`" % n for n in ns))
open(p, "w").write(head + txt)
print(len(every), "axioms;", sum(map(len, sets.values())), "theorems")
