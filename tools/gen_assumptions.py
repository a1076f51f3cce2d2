#!/usr/bin/env python3
"""Runs Print Assumptions on every property theorem (rocq/ must be built) and writes ASSUMPTIONS.md."""
import glob, os, re, subprocess, collections, tempfile
ROOT = os.path.abspath(os.path.join(os.path.dirname(os.path.abspath(__file__)), ".."))
th = os.path.join(ROOT, "rocq", "theories")
probe = []; names = []
for f in sorted(glob.glob(th + "/Prop*.v")):
    mod = os.path.basename(f)[:-2]
    probe.append("From Verif Require %s." % mod)
    for m in re.finditer(r"^Theorem\s+(C\d+_\w+)", open(f).read(), re.M):
        names.append(m.group(1))
        probe.append('Definition mark_%s := 0.\nPrint mark_%s.\nPrint Assumptions Verif.%s.%s.' % (m.group(1), m.group(1), mod, m.group(1)))
d = tempfile.mkdtemp(); pf = os.path.join(d, "probe.v"); open(pf, "w").write("\n".join(probe) + "\n")
out = subprocess.run(["coqc", "-Q", th, "Verif", pf], capture_output=True, text=True).stdout
parts = re.split(r"mark_(C\d+_\w+) =", out)
groups = collections.OrderedDict(); decl = {}
for n, body in zip(parts[1::2], parts[2::2]):
    ax = []
    if "Closed under the global context" not in body:
        for m in re.finditer(r"^([A-Za-z_][\w.']*)\s*:((?:.|\n(?=\s))*)", body.split("Axioms:", 1)[1], re.M):
            ax.append(m.group(1)); decl[m.group(1)] = " ".join(m.group(2).split())
    groups.setdefault(tuple(sorted(ax)), []).append(n)
assert sum(map(len, groups.values())) == len(names), (len(names), sum(map(len, groups.values())))
with open(os.path.join(ROOT, "ASSUMPTIONS.md"), "w") as o:
    o.write("# Print Assumptions for every property theorem (generated by tools/gen_assumptions.py)\n\n")
    o.write("All axioms are declared in Coq's standard library (Reals, FunctionalExtensionality, Classical); none is ours.\n\n")
    for a, t in decl.items(): o.write("* `%s` : `%s`\n" % (a, t))
    for k, v in sorted(groups.items(), key=lambda kv: len(kv[0])):
        o.write("\n## %s\n\n%s\n" % ("Closed under the global context (no axioms)" if not k else ", ".join(k), " ".join(sorted(v))))
print(len(names), {k: len(v) for k, v in groups.items()})
