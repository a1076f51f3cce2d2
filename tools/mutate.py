#!/usr/bin/env python3
"""Seeded-bug runner.  usage: mutate.py muts.json [-j k] [--log]
Each entry: {"id","definition","file","old","new","claim"} : replaces the unique text old by new in
a scratch copy of rocq/, rebuilds, and whenever a proof breaks replaces that proof by Admitted and
goes on.  A property theorem "fails" when it is itself broken or Print Assumptions shows that it
rests on a broken lemma."""
import json, os, re, shutil, subprocess, sys, tempfile
ROOT = os.path.abspath(os.path.join(os.path.dirname(os.path.abspath(__file__)), ".."))
HEAD = re.compile(r"^\s*(?:#\[\w+\]\s*)?(?:Local\s+|Global\s+)?(Lemma|Theorem|Example|Corollary|Fact|Remark|Instance|Definition|Fixpoint)\s+([\w']+)", re.M)

def broken_at(text, line):
    """(start,end,name) of the proof script containing 1-based line, as offsets into text"""
    off = sum(len(l) + 1 for l in text.split("\n")[:line - 1])
    eol = off + len(text.split("\n")[line - 1])
    heads = [m for m in HEAD.finditer(text) if m.start() <= eol]
    if not heads: return None
    h = heads[-1]
    q = re.compile(r"\b(Qed|Defined)\.").search(text, h.end())
    p = re.compile(r"\bProof\b[^.]*\.").search(text, h.end())
    if not q or not p or p.start() > q.start(): return None
    return p.start(), q.end(), h.group(2), h.group(1)

def run(mut, work):
    rocq = os.path.join(work, "rocq")
    shutil.copytree(os.environ.get("MUT_SRC", os.path.join(ROOT, "rocq")), rocq, copy_function=shutil.copy2)
    path = os.path.join(rocq, "theories", mut["file"])
    s = open(path).read()
    if s.count(mut["old"]) != 1:
        return {"error": "old text occurs %d times" % s.count(mut["old"])}
    open(path, "w").write(s.replace(mut["old"], mut["new"]))
    subprocess.run("coq_makefile -f _CoqProject -o Makefile >/dev/null", shell=True, cwd=rocq)
    admitted = []
    tg = ["theories/%s.vo" % x for x in mut.get("targets", [])]
    for _ in range(400):
        r = subprocess.run(["make", "COQC=timeout 300 coqc"] + tg, cwd=rocq, capture_output=True, text=True)
        if r.returncode == 0: break
        m = re.search(r'File "\./(theories/\w+\.v)", line (\d+), characters [\d-]+:\s*Error', r.stderr) or re.search(r'File "\./(theories/\w+\.v)", line (\d+)', r.stderr)
        k = re.search(r'(theories/\w+)\.vo\] Error 124', r.stderr)
        if k: m = None  # the File lines then belong to warnings
        if m: f = os.path.join(rocq, m.group(1)); line = int(m.group(2))
        elif k:  # a proof script runs too long: find the sentence
            f = os.path.join(rocq, k.group(1) + ".v")
            o = subprocess.run(["timeout", "300", "coqc", "-time", "-q", "-Q", "theories", "Verif", k.group(1) + ".v"], cwd=rocq, capture_output=True, text=True).stdout
            e = [int(x) for x in re.findall(r"^Chars \d+ - (\d+)", o, re.M)][-1]
            line = open(f, "rb").read()[:e].decode("utf8").count("\n") + 2
            tt = open(f, "rb").read(); 
            while tt[e:e+1].isspace(): e += 1
            line = tt[:e].decode("utf8").count("\n") + 1
        else: return {"error": (r.stderr or r.stdout)[-500:], "admitted": admitted}
        t = open(f).read()
        b = broken_at(t, line)
        if not b: return {"error": "not in a proof: " + r.stderr[-400:], "admitted": admitted}
        admitted.append(b[2])
        open(f, "w").write(t[:b[0]] + "Admitted." + "\n" * t[b[0]:b[1]].count("\n") + t[b[1]:])
    # which property theorems rest on an admitted lemma?
    probe = []; names = []
    import glob
    for f in sorted(glob.glob(os.path.join(rocq, "theories", "Prop*.v"))):
        mod = os.path.basename(f)[:-2]
        if mut.get("targets") and mod not in mut["targets"]: continue
        if not os.path.exists(f[:-2] + ".vo"): continue
        probe.append("From Verif Require %s." % mod)
        for m in re.finditer(r"^Theorem\s+(C\d+_\w+)", open(f).read(), re.M):
            names.append(m.group(1))
            probe.append('Print Assumptions Verif.%s.%s.\nDefinition mark_%s := 0.\nPrint mark_%s.' % (mod, m.group(1), m.group(1), m.group(1)))
    pf = os.path.join(rocq, "probe.v"); open(pf, "w").write("\n".join(probe) + "\n")
    r = subprocess.run(["coqc", "-Q", "theories", "Verif", "probe.v"], cwd=rocq, capture_output=True, text=True)
    failed = []; rest = r.stdout
    for n in names:
        k = rest.find("mark_%s =" % n)
        if k < 0: return {"error": "probe: " + r.stderr[-300:], "admitted": admitted}
        blk = rest[:k]; rest = rest[k + 5:]
        if any(re.search(r"(^|[\s.])%s\s*:" % re.escape(a), blk) for a in admitted): failed.append(n)
    return {"broken_lemmas": admitted, "failed": failed}

muts = json.load(open(sys.argv[1])); log = "--log" in sys.argv
for mu in muts:
    w = tempfile.mkdtemp(prefix="mut_", dir="/tmp")
    try: r = run(mu, w)
    finally: shutil.rmtree(w, ignore_errors=True)
    print(mu.get("id", ""), mu["definition"], "->", json.dumps(r)[:1500], flush=True)
    if log and "failed" in r:
        with open(os.path.join(ROOT, "seeded", "LOG.jsonl"), "a") as fo:
            fo.write(json.dumps({"definition": mu["definition"], "edit": "%s: `%s` -> `%s`" % (mu["file"], mu["old"], mu["new"]),
              "claim": mu["claim"], "broken_lemmas": len(r["broken_lemmas"]), "theorems_failed": r["failed"], "theorems_tightened": mu.get("tightened", [])}) + "\n")
