#!/usr/bin/env python3
"""Run Print Assumptions on every property theorem (P_*.v) of the built tree and write ASSUMPTIONS.md."""
import re, glob, os, subprocess, sys, tempfile
root = os.path.dirname(os.path.dirname(os.path.abspath(__file__)))
th = root + "/rocq/theories"
groups = {}
for f in sorted(glob.glob(th + "/P_*.v")):
    n = os.path.basename(f)[:-2]
    groups[n] = re.findall(r"^ *(?:Theorem|Example|Lemma) (C\d\d\w*)", open(f).read(), re.M)
out = ["# What Print Assumptions lists for each theorem", "",
 "Generated by tools/gen_assumptions.py from the built tree. Every axiom is in Coq's standard library:", "",
 "* F = `ClassicalDedekindReals.sig_forall_dec`", "* N = `ClassicalDedekindReals.sig_not_dec`",
 "* E = `FunctionalExtensionality.functional_extensionality_dep`", "* C = `Classical_Prop.classic`", "* – = closed under the global context", ""]
key = {"ClassicalDedekindReals.sig_forall_dec": "F", "ClassicalDedekindReals.sig_not_dec": "N",
       "FunctionalExtensionality.functional_extensionality_dep": "E", "Classical_Prop.classic": "C"}
tot = {}
def run(n):
    ts = groups[n]
    src = "From Verif Require Import %s.\n" % n
    for t in ts: src += 'Goal True. idtac "@@ %s". exact I. Qed.\nPrint Assumptions %s.%s.\n' % (t, n, t)
    d = tempfile.mkdtemp(); p = d + "/a.v"; open(p, "w").write(src)
    return subprocess.run(["coqc", "-Q", th, "Verif", p], capture_output=True, text=True, timeout=900)
from concurrent.futures import ThreadPoolExecutor
names = [n for n in groups if groups[n]]
for n, r in zip(names, ThreadPoolExecutor(4).map(run, names)):
    if r.returncode: print(n, r.stderr[-400:]); sys.exit(1)
    out += ["## %s" % n, ""]
    for part in r.stdout.split("@@ ")[1:]:
        name, body = part.split("\n", 1)
        ax = set(re.findall(r"^([A-Za-z_][\w.]*)\s*:", body, re.M)) | set(re.findall(r"^([A-Za-z_][\w.]*)\n", body, re.M)) - {"Axioms"}
        ax.discard("Axioms")
        bad = ax - set(key)
        if bad: print("UNKNOWN", name, bad)
        k = "".join(sorted(key.get(a, "?") for a in ax)) or "–"
        tot[k] = tot.get(k, 0) + 1
        out.append("* %s: %s" % (name.strip(), k))
    out.append("")
open(root + "/ASSUMPTIONS.md", "w").write("\n".join(out))
print(tot)
