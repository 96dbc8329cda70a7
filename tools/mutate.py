#!/usr/bin/env python3
"""Apply one edit to a model file in a scratch copy, rebuild what depends on it
and report which property theorems no longer prove.

usage: mutate.py mutations.json index scratchdir
A failing proof is admitted (in the scratch copy only) so that every failing
lemma is found; a property theorem fails if it then rests on an admitted lemma.
With MUT_FAST set the search stops after the first file of properties with a failing theorem.
Result: one JSON line on stdout."""
import json, os, re, shutil, subprocess, sys

SRC = os.environ.get("MUT_SRC") or ("/tmp/mut/src" if os.path.exists("/tmp/mut/src") else "/verif/rocq")
muts = json.load(open(sys.argv[1]))
m = muts[int(sys.argv[2])]
W = sys.argv[3]
if os.path.exists(W):
    shutil.rmtree(W)
shutil.copytree(SRC, W)
files = [l.strip() for l in open(W + "/_CoqProject") if l.strip().endswith(".v")]
deps = {}
for f in files:
    txt = open(f"{W}/{f}").read()
    d = set()
    for r in re.findall(r"From Verif Require (?:Import|Export)([^.]*)\.", txt):
        d |= set(r.split())
    deps[os.path.basename(f)[:-2]] = d
target = m["file"]
path = f"{W}/theories/{target}.v"
s = open(path).read()
assert s.count(m["old"]) == m.get("count", 1), ("occurrences", s.count(m["old"]), m["old"])
s = s.replace(m["old"], m["new"])
open(path, "w").write(s)
dirty = {target}
order = [os.path.basename(f)[:-2] for f in files]
for n in order:
    if deps[n] & dirty:
        dirty.add(n)
failed, broken_files = [], []
props = {}
START = re.compile(r"^\s*(?:#\[[^\]]*\]\s*)?(?:Local |Global )?(Lemma|Theorem|Example|Corollary|Fact|Remark|Let|Fixpoint|Definition|Instance|Program Definition)\s+([\w']+)")
def run(n):
    return subprocess.run(["timeout", "900", "coqc", "-w", "none", "-Q", "theories", "Verif",
                           f"theories/{n}.v"], cwd=W, capture_output=True, text=True)
def closure(n, seen):
    if n in dirty and n not in seen:
        seen.add(n)
        for d in deps[n]:
            closure(d, seen)
    return seen
plan = [n for n in order if n in dirty]
FAST = os.environ.get("MUT_FAST")
if FAST:
    size = lambda n: os.path.getsize(f"{W}/theories/{n}.v")
    plan, todo = [], [n for n in order if n in dirty and n.startswith("Props")]
    while todo:
        cost = lambda q: sum(size(x) for x in closure(q, set()) if x not in plan)
        b = min(todo, key=cost)
        c = closure(b, set())
        plan += [x for x in order if x in c and x not in plan]
        todo = [x for x in todo if x not in plan]
for n in plan:
    p = f"{W}/theories/{n}.v"
    for _ in range(200):
        r = run(n)
        if r.returncode == 0:
            break
        mm = re.search(r'line (\d+), characters', r.stderr)
        if not mm:
            broken_files.append((n, r.stderr[-300:] or "timeout")); break
        ln = int(mm.group(1))
        lines = open(p).read().split("\n")
        i = ln - 1
        if lines[i].startswith("Print Assumptions"):
            lines[i] = ""
            open(p, "w").write("\n".join(lines))
            continue
        while i >= 0 and not START.match(lines[i]):
            i -= 1
        if i < 0:
            broken_files.append((n, r.stderr[-300:])); break
        kind, name = START.match(lines[i]).groups()
        j = i
        while j < len(lines) and not re.search(r"\b(Qed|Defined|Admitted)\.", lines[j]):
            j += 1
        k = i
        while k < min(j + 1, len(lines)) and not re.search(r"(^|\s)Proof\b", lines[k]):
            k += 1
        if k <= j and ln - 1 < k:  # the statement itself no longer typechecks
            failed.append(f"{n}.{name} (statement)")
            if n.startswith("Props"):
                props[name] = []
            lines[i:j+1] = [""] * (j + 1 - i)
            open(p, "w").write("\n".join(lines))
            continue
        if k > j or kind in ("Definition", "Fixpoint") and not any("Qed" in x or "Defined" in x for x in lines[i:j+1]) or ln - 1 < k:
            broken_files.append((n, f"{kind} {name}: {r.stderr[-300:]}")); break
        failed.append(f"{n}.{name}")
        head = lines[k][:re.search(r"(^|\s)Proof\b", lines[k]).start()]
        lines[k:j+1] = [head + " Admitted."] + [""] * (j - k)
        if n.startswith("Props") and kind == "Example":
            pass
        open(p, "w").write("\n".join(lines))
    else:
        broken_files.append((n, "too many errors"))
    if n.startswith("Props") and r.returncode == 0:
        src = open(p).read()
        names = re.findall(r"^Print Assumptions ([\w']+)", src, re.M)
        blocks = re.split(r"(?=^Closed under the global context|^Axioms:)", r.stdout, flags=re.M)
        blocks = [b for b in blocks if b.strip()]
        for nm, b in zip(names, blocks):
            ax = re.findall(r"^(?:Verif\.)?([\w'.]+)\s*(?::|$)", b[7:], re.M) if not b.startswith("Closed") else []
            ax = [a for a in ax if not re.match(r"(ClassicalDedekindReals|Classical_Prop|Epsilon|FunctionalExtensionality)\.", a)]
            if ax:
                props.setdefault(nm, ax[:4])
    if FAST and props:
        break
out = {"definition": m["definition"], "file": target, "edit": m["edit"], "claim": m["claim"],
       "failed_theorems": sorted(props), "failed_lemmas": failed,
       "unbuilt": [b[0] + ": " + b[1][:160] for b in broken_files],
       "tightened": m.get("tightened", [])}
print(json.dumps(out))
shutil.rmtree(W)
