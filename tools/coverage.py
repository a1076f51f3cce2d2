#!/usr/bin/env python3
"""Lines of /repo/src cited by definitions of the model, per file; prints uncited non-trivial line ranges with -v."""
import re, glob, os, sys, collections
files = {}
for f in glob.glob("/repo/src/**/*.*", recursive=True):
    if f.endswith((".h", ".inl", ".cpp")) and "external" not in f: files[os.path.basename(f)] = f
cited = collections.defaultdict(set)
for v in glob.glob(os.path.join(os.path.dirname(os.path.abspath(__file__)), "../rocq/theories/*.v")):
    s = open(v).read()
    for m in re.finditer(r"(\w+\.(?:inl|h|cpp)):((?:\s*\d+(?:-\d+)?,?(?:\s*and)?)+)", s):
        if m.group(1) in files:
            for r in re.finditer(r"(\d+)(?:-(\d+))?", m.group(2)):
                a = int(r.group(1)); b = int(r.group(2) or a); cited[m.group(1)].update(range(a, b + 1))
for n, f in sorted(files.items(), key=lambda kv: kv[1]):
    ls = open(f, errors="replace").read().split("\n")
    code = [i + 1 for i, l in enumerate(ls) if l.strip() and not re.match(r"\s*(#|//|\*|/\*|template|NS_|\}|\{|public:|private:|typedef|using|inline$|$)", l)]
    un = [i for i in code if i not in cited[n]]
    print("%-55s code %4d cited %4d" % (f[10:], len(code), len(code) - len(un)))
    if "-v" in sys.argv and un and n in sys.argv:
        for i in un: print("      %4d %s" % (i, ls[i - 1][:110]))
