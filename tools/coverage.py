#!/usr/bin/env python3
"""For every function of /repo/cyjax, the definitions of the model citing its lines."""
import ast, glob, os, re
root = os.path.dirname(os.path.dirname(os.path.abspath(__file__)))
cites = []
for f in sorted(glob.glob(root + "/rocq/theories/*.v")):
    txt = open(f).read()
    for m in re.finditer(r"\(\*\*?(.*?)\*\)\s*(?:#\[[^\]]*\]\s*)?(?:(?:Local )?(?:Definition|Fixpoint|Inductive|Record|Notation|Variant|Let|CoInductive)\s+([\w']+))?", txt, re.S):
        for c in re.finditer(r"(\w+)\.py:(\d+)(?:-(\d+))?((?:\s*,\s*\d+(?:-\d+)?)*)", m.group(1)):
            spans = [(int(c.group(2)), int(c.group(3) or c.group(2)))]
            for e in re.finditer(r"(\d+)(?:-(\d+))?", c.group(4)):
                spans.append((int(e.group(1)), int(e.group(2) or e.group(1))))
            for s in spans:
                cites.append((c.group(1), s, os.path.basename(f)[:-2], m.group(2)))
if __name__ == "__main__":
    for f in sorted(glob.glob("/repo/cyjax/*.py")):
        b = os.path.basename(f)[:-3]
        def walk(node, pre):
            for n in node.body:
                if isinstance(n, (ast.FunctionDef, ast.ClassDef)):
                    if isinstance(n, ast.FunctionDef):
                        lo, hi = n.lineno, n.end_lineno
                        hit = sorted({(x[2] + "." + x[3]) if x[3] else x[2] for x in cites if x[0] == b and x[1][0] <= hi and x[1][1] >= lo})
                        print("%s.py:%d %s%s -> %s" % (b, lo, pre, n.name, ", ".join(hit) or "-"))
                    else:
                        walk(n, pre + n.name + ".")
        walk(ast.parse(open(f).read()), "")
