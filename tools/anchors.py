"""Check that every anchor in properties.jsonl names something defined in /repo."""
import ast, json, sys
bad, names = 0, {}

def defined(f):
    if f not in names:
        names[f] = set()
        def walk(node, pre):
            for x in ast.iter_child_nodes(node):
                if isinstance(x, (ast.FunctionDef, ast.ClassDef)):
                    names[f].add(pre + x.name)
                    walk(x, pre + x.name + ".")
                elif isinstance(x, (ast.Assign, ast.AnnAssign)):
                    for t in getattr(x, "targets", [getattr(x, "target", None)]):
                        if isinstance(t, ast.Name):
                            names[f].add(pre + t.id)
        walk(ast.parse(open("/repo/" + f).read()), "")
    return names[f]

for line in open("/verif/properties.jsonl"):
    d = json.loads(line)
    for a in d["anchors"]:
        f, n = a.split(":", 1)
        if n not in defined(f):
            bad += 1
            print(d["id"], a)
sys.exit(bad > 0)
