#!/usr/bin/env python3
"""Compile every *Props.v (the other files must be built) and write the table of
Print Assumptions into DESIGN.md between the two marker lines."""
import glob, os, re, subprocess, sys
from concurrent.futures import ThreadPoolExecutor
root = os.path.dirname(os.path.dirname(os.path.abspath(__file__)))
th = os.path.join(root, "rocq/theories")
def run(f):
    names = re.findall(r"^Print Assumptions (\w+)\.", open(f).read(), re.M)
    out = subprocess.run(["coqc", "-q", "-w", "none", "-Q", th, "Verif", "-o", "/tmp/pa/" + os.path.basename(f) + "o", f], cwd=th,
                         capture_output=True, text=True)
    assert out.returncode == 0, (f, out.stderr)
    blocks = []
    for line in out.stdout.splitlines():
        if line.startswith("Closed under the global context"):
            blocks.append([])
        elif line == "Axioms:":
            blocks.append([])
        else:
            m = re.match(r"^([\w.']+)\s*(:|$)", line)
            if m and blocks:
                blocks[-1].append(m.group(1))
    assert len(names) == len(blocks), (f, len(names), len(blocks))
    return [(os.path.basename(f), n, b) for n, b in zip(names, blocks)]
os.makedirs("/tmp/pa", exist_ok=True)
files = sorted(glob.glob(th + "/*Props.v"))
with ThreadPoolExecutor(2) as ex:
    rows = [r for rs in ex.map(run, files) for r in rs]
closed = [r for r in rows if not r[2]]
opened = [r for r in rows if r[2]]
lines = ["%d theorems, %d of them \"Closed under the global context\".  The others:" % (len(rows), len(closed)), ""]
kinds = {}
for f, n, b in opened:
    kinds.setdefault(tuple(sorted(set(b))), []).append(n)
for k, ns in kinds.items():
    lines.append("* " + ", ".join("`%s`" % n for n in ns) + ": " + ", ".join("`%s`" % a for a in k) + ".")
lines += ["", "Closed under the global context:", ""]
byf = {}
for f, n, b in closed:
    byf.setdefault(f, []).append(n)
for f, ns in byf.items():
    lines.append("* `%s`: %s" % (f, ", ".join(ns)))
d = os.path.join(root, "DESIGN.md")
s = open(d).read()
a, b = "<!-- assumptions -->", "<!-- /assumptions -->"
s = s[:s.index(a) + len(a)] + "\n" + "\n".join(lines) + "\n" + s[s.index(b):]
open(d, "w").write(s)
print(len(rows), len(opened))
