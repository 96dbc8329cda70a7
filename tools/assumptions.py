#!/usr/bin/env python3
"""Print what Print Assumptions lists for every theorem of the Props files."""
import glob, os, re, subprocess, sys
root = os.path.join(os.path.dirname(os.path.abspath(__file__)), "..", "rocq")
res = {}
for f in sorted(glob.glob(os.path.join(root, "theories", "Props*.v"))):
    names = re.findall(r"^Print Assumptions (\w+)\.", open(f).read(), re.M)
    out = subprocess.run(["coqc", "-w", "none", "-Q", "theories", "Verif", "-o", "/tmp/" + os.path.basename(f) + "o", f], cwd=root,
                         capture_output=True, text=True)
    if out.returncode:
        sys.exit(out.stderr)
    blocks = re.split(r"^(?=Closed under|Axioms:)", out.stdout, flags=re.M)[1:]
    assert len(blocks) == len(names), (f, len(blocks), len(names))
    for n, b in zip(names, blocks):
        ax = () if b.startswith("Closed") else tuple(sorted(set(re.findall(r"^([\w.]+)\s*(?::|$)", b[8:], re.M))))
        res.setdefault(ax, {}).setdefault(os.path.basename(f)[:-2], []).append(n)
for ax in sorted(res):
    print("**%s**\n" % ("Closed under the global context" if not ax else "Axioms: " + ", ".join("`%s`" % a for a in ax)))
    for f in res[ax]:
        print("* `%s`: %s" % (f, ", ".join(res[ax][f])))
    print()
