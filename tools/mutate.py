#!/usr/bin/env python3
"""Seeded-bug runner.

For every mutant (tools/mutants.py) copies rocq/ to a scratch directory, edits one definition of
the model, and rebuilds everything that depends on it.  A proof that no longer compiles is
replaced by Admitted so that the build can go on; afterwards `Print Assumptions` tells which of
the theorems of MANIFEST.json rest on a proof that broke.  Prints one JSON object per mutant.

With MUTATE_FOCUS=1 only the files of the claims the edit is meant to break, and what these need,
are rebuilt, and only the theorems of these files are reported.

usage: mutate.py [id ...]      (all mutants if none is given)
"""
import json, os, re, shutil, subprocess, sys
from concurrent.futures import ThreadPoolExecutor

ROOT = os.path.dirname(os.path.dirname(os.path.abspath(__file__)))
SCRATCH = os.environ.get("MUTATE_SCRATCH", "/tmp/mutants")
sys.path.insert(0, os.path.join(ROOT, "tools"))
DECL = re.compile(r"^(?:#\[[^\]]*\] *)?(Lemma|Theorem|Corollary|Example|Fact|Remark|Instance|Local Lemma|Global Instance) +([\w']+)", re.M)


def deps(dirname):
    out = subprocess.run("coqdep -Q theories Verif theories/*.v", shell=True, cwd=dirname, capture_output=True, text=True).stdout
    d = {}
    for line in out.splitlines():
        m = re.match(r"(theories/\w+)\.vo .*?: (.*)", line)
        if m:
            d[m.group(1)] = [x[:-3] for x in m.group(2).split() if x.endswith(".vo")]
    return d


def order(d):
    seen, res = set(), []

    def go(f):
        if f in seen:
            return
        seen.add(f)
        for g in d.get(f, []):
            go(g)
        res.append(f)
    for f in sorted(d):
        go(f)
    return res


def coqc(dirname, f, timeout=400):
    try:
        r = subprocess.run(["timeout", str(timeout), "coqc", "-w", "-all", "-Q", "theories", "Verif", f + ".v"], cwd=dirname, capture_output=True, text=True)
    except Exception as e:  # pragma: no cover
        return 1, str(e)
    return r.returncode, r.stdout + r.stderr


def break_proof(path, line):
    """Admit (or drop) the statement around `line`; returns its name."""
    s = open(path).read()
    pos = sum(len(x) + 1 for x in s.split("\n")[: line - 1])
    eol = s.find("\n", pos)
    decls = [m for m in DECL.finditer(s) if m.start() <= (eol if eol >= 0 else len(s))]
    if not decls:
        return None
    m = decls[-1]
    end = re.compile(r"\b(Qed|Defined|Admitted)\.").search(s, m.end())
    if end is None or end.end() < pos:
        return None
    body = s[m.start(): end.end()]
    k = re.search(r"\bProof\.", body)
    if k is None or body.endswith("Admitted.") or pos < m.start() + k.start() and line_of(s, m.start() + k.start()) > line:
        # the statement itself does not check any more
        s = s[: m.start()] + s[end.end():]
    else:
        s = s[: m.start() + k.start()] + "Proof. Admitted." + s[end.end():]
    open(path, "w").write(s)
    return m.group(2)


def line_of(s, pos):
    return s.count("\n", 0, pos) + 1


def focus(mu, base_deps, theorems):
    """The files needed for the claims of the mutant, and the theorems of these claims' files."""
    where = {}
    for g in base_deps:
        if os.path.basename(g).startswith("Properties"):
            for m in DECL.finditer(open(os.path.join(ROOT, "rocq", g + ".v")).read()):
                where[m.group(2)] = g
    tops = {where[t] for t in theorems if t in where and any(t.startswith(c + "_") for c in mu["breaks"])}
    need, todo = set(), list(tops)
    while todo:
        g = todo.pop()
        if g not in need:
            need.add(g)
            todo += base_deps.get(g, [])
    return {g: base_deps[g] for g in base_deps if g in need}, [t for t in theorems if where.get(t) in tops]


def run(mu, base_deps, theorems):
    if os.environ.get("MUTATE_FOCUS"):
        base_deps, theorems = focus(mu, base_deps, theorems)
    d = os.path.join(SCRATCH, mu["id"])
    shutil.rmtree(d, ignore_errors=True)
    shutil.copytree(os.path.join(ROOT, "rocq"), d)
    f = os.path.join(d, "theories", mu["file"])
    s = open(f).read()
    if s.count(mu["old"]) != 1:
        return {"id": mu["id"], "error": "edit matches %d times" % s.count(mu["old"])}
    open(f, "w").write(s.replace(mu["old"], mu["new"]))
    start = "theories/" + mu["file"][:-2]
    dirty, broken, skipped = {start}, [], []
    for g in order(base_deps):
        if g == start or any(x in dirty for x in base_deps[g]):
            dirty.add(g)
            if any(x in skipped for x in base_deps[g]):
                skipped.append(g)
                continue
            last = None
            for _ in range(60):
                rc, out = coqc(d, g)
                if rc == 0:
                    break
                m = re.search(r'line (\d+), characters', out)
                if not m:
                    # no position: the last statement ran into the time limit; admit it by bisection is not worth it
                    last = None
                    break
                name = break_proof(os.path.join(d, g + ".v"), int(m.group(1)))
                if name is None:
                    last = out
                    break
                broken.append(name)
            else:
                rc = 1
            if rc != 0:
                skipped.append(g)
                mu.setdefault("trouble", []).append((g, (last or out)[-300:]))
    # which manifest theorems rest on a broken proof
    failed = []
    props = [g for g in base_deps if os.path.basename(g).startswith("Properties")]
    where = {}
    for g in props:
        for m in DECL.finditer(open(os.path.join(ROOT, "rocq", g + ".v")).read()):
            where[m.group(2)] = g
    script = ""
    live = [t for t in theorems if where.get(t) not in skipped and t not in broken]
    failed = [t for t in theorems if t not in live]
    for g in props:
        if g not in skipped:
            script += "From Verif Require %s.\n" % os.path.basename(g)
    for t in live:
        script += 'Goal True. idtac "@@ %s". exact I. Qed.\nPrint Assumptions Verif.%s.%s.\n' % (t, os.path.basename(where[t]), t)
    open(os.path.join(d, "q.v"), "w").write(script)
    r = subprocess.run(["timeout", "900", "coqc", "-w", "-all", "-Q", "theories", "Verif", "q.v"], cwd=d, capture_output=True, text=True)
    cur, hit = None, set()
    for line in r.stdout.splitlines():
        if line.startswith("@@ "):
            cur = line[3:].strip()
        elif cur and " :" in line or cur and re.match(r"^[\w.']+$", line):
            nm = line.split(" :")[0].strip().split(".")[-1]
            if nm in broken:
                hit.add(cur)
    failed = [t for t in theorems if t in hit or t not in live]
    examples = [b for b in broken if b.endswith("_case") or "_case" in b]
    shutil.rmtree(d, ignore_errors=True)
    return {"id": mu["id"], "file": mu["file"], "definition": mu["definition"], "edit": mu["edit"], "claim": mu["claim"],
            "failed": failed, "examples_failed": examples, "survived_of_claim": [t for t in theorems if t not in failed and any(t.startswith(c + "_") for c in mu["breaks"])],
            "broken_proofs": [b for b in broken if b not in examples][:12], "trouble": mu.get("trouble", []),
            "query_error": "" if r.returncode == 0 else (r.stdout + r.stderr)[-300:]}


def main():
    from mutants import MUTANTS
    man = json.load(open(os.path.join(ROOT, "MANIFEST.json")))
    theorems = [t for c in man["claims"] for t in c["theorems"]]
    theorems = list(dict.fromkeys(theorems))
    want = sys.argv[1:]
    todo = [m for m in MUTANTS if not want or any(m["id"] == w or (w.endswith("*") and m["id"].startswith(w[:-1])) for w in want)]
    base = deps(os.path.join(ROOT, "rocq"))
    os.makedirs(SCRATCH, exist_ok=True)
    with ThreadPoolExecutor(int(os.environ.get("MUTATE_JOBS", "4"))) as ex:
        for r in ex.map(lambda m: run(m, base, theorems), todo):
            print(json.dumps(r), flush=True)


if __name__ == "__main__":
    main()
