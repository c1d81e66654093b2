#!/usr/bin/env python3
"""Try wrong programs: python3 tools/mutate.py mutations.json [scratch dir]

Each mutation is {"file", "definition", "old", "new", "edit", "claim", "expect": [properties]}.  In a scratch copy (with the
compiled files of /verif/rocq) the model file is edited, everything depending on it is rebuilt with make -k, and one line is
appended to seeded/LOG.jsonl naming the files and theorems that no longer compile."""
import json, os, re, subprocess, sys, shutil
ROOT = "/verif"; SRC = os.environ.get("MUTATE_SRC", ROOT + "/rocq"); SCRATCH = sys.argv[2] if len(sys.argv) > 2 else "/tmp/mut"
def sh(c, t=3000):
    try:
        return subprocess.run(c, shell=True, capture_output=True, text=True, timeout=t)
    except subprocess.TimeoutExpired as e:
        class R: stdout = (e.stdout or b"").decode() if isinstance(e.stdout, bytes) else (e.stdout or ""); stderr = (e.stderr or b"").decode() if isinstance(e.stderr, bytes) else (e.stderr or ""); returncode = 124
        return R
def fresh():
    sh(f"mkdir -p {SCRATCH} && rsync -a --delete {SRC}/ {SCRATCH}/") if shutil.which("rsync") else sh(f"rm -rf {SCRATCH} && cp -a {SRC} {SCRATCH}")
def enclosing(path, line):
    """name of the theorem/lemma around the failing line"""
    name = None
    for i, l in enumerate(open(path), 1):
        m = re.match(r"\s*(?:Local\s+|Global\s+)?(Theorem|Lemma|Example|Corollary|Definition|Fixpoint|Record|Fact)\s+([\w']+)", l)
        if m: name = m.group(2)
        if i >= line: break
    return name
def dependents(deps, f):
    out, todo = set(), [f]
    while todo:
        x = todo.pop()
        for k, v in deps.items():
            if x in v and k not in out: out.add(k); todo.append(k)
    return out
def depmap():
    deps = {}
    for f in os.listdir(f"{SCRATCH}/theories"):
        if f.endswith(".v"):
            t = open(f"{SCRATCH}/theories/{f}").read()
            ms = set()
            for m in re.finditer(r"From Verif Require (?:Import|Export)\s+([^.]*)\.", t): ms |= set(m.group(1).split())
            deps[f[:-2]] = ms
    return deps
muts = json.load(open(sys.argv[1]))
for m in muts:
    fresh()
    path = f"{SCRATCH}/theories/{m['file']}.v"
    s = open(path).read()
    n = s.count(m["old"])
    if n != 1:
        print("SKIP", m["definition"], "occurrences:", n); continue
    open(path, "w").write(s.replace(m["old"], m["new"]))
    targets = sorted(f"theories/{f}o" for f in os.listdir(f"{SCRATCH}/theories") if re.search(r"Props\d*\.v$", f)
                     and any(c + "_" in open(f"{SCRATCH}/theories/{f}").read() for c in m["expect"]))
    r = sh(f"cd {SCRATCH} && make -k -j3 {' '.join(targets)} 2>&1 | grep -v '^COQ\\|Closed' ", m.get("timeout", 1500))
    out = r.stdout
    failed, own = [], False
    for e in re.finditer(r'File "\./theories/(\w+)\.v", line (\d+), characters [^\n]*\n(?:[^\n]*\n)?', out):
        if "Error" not in out[e.start():e.end() + 200]: continue
        th = enclosing(f"{SCRATCH}/theories/{e.group(1)}.v", int(e.group(2)))
        if e.group(1) == m["file"]: own = True
        failed.append(f"{e.group(1)}.{th}")
    for e in re.finditer(r"\[[^\]]*: theories/(\w+)\.vo\] (?:Killed|Error 137|Terminated)", out): failed.append(e.group(1) + ".(killed)")
    if r.returncode == 124: failed.append("(timeout)")
    deps = depmap()
    blocked = set()
    for f in set(x.split(".")[0] for x in failed):
        blocked |= {d for d in dependents(deps, f) | {f} if re.search(r"Props\d*$", d)}
    missing = [c for c in m.get("expect", []) if not any(c + "_" in open(f"{SCRATCH}/theories/{b}.v").read() for b in blocked)]
    verdict = "model does not compile" if own else ("killed" if failed and not missing else "SURVIVED")
    rec = {"definition": f"{m['file']}.{m['definition']}", "edit": m["edit"], "claim_broken": m["claim"], "property": m.get("expect", []),
           "failed": failed, "blocked_property_files": sorted(blocked), "verdict": verdict, "tightened": m.get("tightened", [])}
    print(json.dumps(rec)[:600], flush=True)
    if not own:
        with open(f"{ROOT}/seeded/LOG.jsonl", "a") as g: g.write(json.dumps(rec) + "\n")
