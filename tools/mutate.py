#!/usr/bin/env python3
"""Mutation test of the theorems.

usage: mutate.py SPEC.json      SPEC = list of {definition, file, old, new, claim[, tightened]}

For each entry: copy /verif/rocq to a scratch directory, apply the edit to the
model, rebuild.  (Environment: MUT scratch directory, BASE the built tree to copy,
DRY=1 not to log.)  Whenever a lemma no longer checks, it is replaced (in the
scratch copy only) by an unproved one and the build goes on, so that at the end
Print Assumptions tells which property theorems lost their proof.  One line per
entry is appended to seeded/LOG.jsonl.
"""
import json, os, re, time, shutil, subprocess, sys
ROOT = os.path.dirname(os.path.dirname(os.path.abspath(__file__)))
TMP = os.environ.get("MUT", "/tmp/mut")
SCR = TMP + "/rocq"
def sh(c):
    return subprocess.run(c, shell=True, cwd=SCR, capture_output=True, text=True)
def fresh():
    os.makedirs(TMP, exist_ok=True)
    shutil.rmtree(SCR, ignore_errors=True)
    subprocess.check_call("cp -a %s %s" % (os.environ.get("BASE", ROOT + "/rocq"), SCR), shell=True)
HEAD = re.compile(r"^\s*(?:Local |Global |#\[[^\]]*\] *)*(Lemma|Theorem|Corollary|Example|Remark|Fact|Instance|Proposition|Definition|Fixpoint|Let)\s+([A-Za-z0-9_']+)", re.M)
def admit_at(path, line, bad):
    src = open(path).read()
    pos = sum(len(l) + 1 for l in src.split("\n")[:line - 1]) + 1
    hs = [m for m in HEAD.finditer(src) if m.start() <= pos + 200 and src.count("\n", 0, m.start()) + 1 <= line]
    if not hs: return None
    m = hs[-1]
    if m.group(1) in ("Definition", "Fixpoint"):
        return None
    end = re.compile(r"\b(Qed|Defined)\.").search(src, m.start())
    pr = re.compile(r"\bProof\b[^.]*\.").search(src, m.start())
    if not end: return None
    if pr and pr.start() < end.start():
        new = src[:pr.start()] + "Proof. Admitted." + src[end.end():]
    else:
        return None
    if m.group(1) == "Let":
        if ":=" in src[m.start():pr.start()]: return None
        new = new[:m.start(1)] + "Lemma" + new[m.end(1):]
    if m.group(1) == "Example":      # a concrete test: just drop it
        new = src[:m.start()] + src[end.end():]
    open(path, "w").write(new)
    bad.append(m.group(2)); return m.group(2)
def run(e):
    fresh()
    p = SCR + "/theories/" + e["file"]
    src = open(p).read()
    if src.count(e["old"]) != 1:
        return print("edit must match once, found", src.count(e["old"]), e["definition"])
    open(p, "w").write(src.replace(e["old"], e["new"]))
    t0 = time.time(); time.sleep(1.1)
    bad = []; sh("coq_makefile -f _CoqProject -o Makefile")
    out = {}
    broken = None
    for _ in range(120):
        r = sh("timeout 1500 make -j3 2>&1")
        txt = r.stdout
        m = re.search(r'File "\./?([^"]+)", line (\d+), characters [^\n]*\n(?:Warning.*\n)?(?!Warning)(Error[^\n]*(?:\n[^\n]*){0,3})', txt)
        errs = [(x.group(1), int(x.group(2))) for x in re.finditer(r'File "\./?([^"]+)", line (\d+), characters [^\n]*\n\s*Error', txt)]
        if not errs:
            if r.returncode: broken = txt[-600:]
            break
        f, l = errs[0]
        if not admit_at(SCR + "/" + f, l, bad):
            s = open(SCR + "/" + f).read().split("\n")
            broken = "%s:%d %s %s" % (f, l, s[l-1], m.group(3) if m else ""); break
    fails = []
    if broken is None:
        for d, _, fs in os.walk(SCR + "/theories"):
            for fn in fs:
                if fn.startswith("Properties") and fn.endswith(".v"):
                    if not os.path.exists(d + "/" + fn + "o") or os.path.getmtime(d + "/" + fn + "o") < t0: continue   # not affected by the edit
                    mod = "Verif." + os.path.relpath(d, SCR + "/theories").replace("/", ".") + "." + fn[:-2]
                    s = open(d + "/" + fn).read()
                    ths = re.findall(r"^(?:Theorem|Corollary)\s+(C\d\d\w*)", s, re.M)
                    q = "Require Import %s.\n" % mod + "".join('Print Assumptions %s.\n' % t for t in ths)
                    open(SCR + "/q.v", "w").write(q)
                    o = sh("coqtop -Q theories Verif -batch -l q.v 2>&1").stdout
                    parts = re.split(r"(?=Closed under the global context|Axioms:)", o)
                    parts = [x for x in parts if x.startswith(("Closed", "Axioms"))]
                    assert len(parts) == len(ths), (mod, len(parts), len(ths), o[:400])
                    for t, x in zip(ths, parts):
                        if any(re.search(r"(^|[.\s])%s\s*:" % re.escape(b), x) or b == t for b in bad):
                            fails.append(t)
    log = {"definition": e["definition"], "file": e["file"], "edit": "%s  ==>  %s" % (e["old"], e["new"]),
           "claim": e["claim"], "theorems_failed": sorted(fails), "lemmas_failed": bad,
           "theorems_tightened": e.get("tightened", [])}
    if broken: log["build"] = "stopped: " + broken
    if e.get("note"): log["note"] = e["note"]
    print(json.dumps({k: log[k] for k in ("definition", "theorems_failed", "lemmas_failed")}), broken or "", flush=True)
    if not os.environ.get("DRY"):
        open(ROOT + "/seeded/LOG.jsonl", "a").write(json.dumps(log) + "\n")
for e in json.load(open(sys.argv[1])):
    run(e)
