#!/usr/bin/env python3
"""Print the line ranges of the functions and classes in a file of /repo."""
import ast, sys
def walk(node, prefix):
    for n in ast.iter_child_nodes(node):
        if isinstance(n, (ast.FunctionDef, ast.ClassDef)):
            start = min([n.lineno] + [d.lineno for d in n.decorator_list])
            print(f"{start}-{n.end_lineno}\t{prefix}{n.name}")
            walk(n, prefix + n.name + ".")
for f in sys.argv[1:]:
    print(f); walk(ast.parse(open(f).read()), "")
