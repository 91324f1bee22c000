#!/usr/bin/env python3
"""Compile the property files (the others must be built) and write ASSUMPTIONS.md: the axioms of each theorem."""
import glob, os, re, subprocess
here = os.path.dirname(os.path.abspath(__file__))
rocq = os.path.join(here, "..", "rocq")
rows = []
for f in sorted(glob.glob(os.path.join(rocq, "theories", "Prop*.v"))):
    names = re.findall(r"^Print Assumptions (\w+)\.", open(f).read(), re.M)
    out = subprocess.run(["coqc", "-Q", "theories", "Verif", os.path.relpath(f, rocq)], cwd=rocq, capture_output=True, text=True)
    assert out.returncode == 0, (f, out.stderr)
    blocks = re.split(r"^(Axioms:|Closed under the global context)$", out.stdout, flags=re.M)[1:]
    heads, bodies = blocks[0::2], blocks[1::2]
    assert len(heads) == len(names), (f, len(heads), len(names))
    for n, h, b in zip(names, heads, bodies):
        ax = [] if h != "Axioms:" else re.findall(r"^([\w.]+)\s*(?::|$)", b, re.M)
        rows.append((n, os.path.basename(f), ax))
short = {"ClassicalDedekindReals.sig_forall_dec": "sig_forall_dec", "ClassicalDedekindReals.sig_not_dec": "sig_not_dec",
         "FunctionalExtensionality.functional_extensionality_dep": "functional_extensionality_dep", "Classical_Prop.classic": "classic"}
with open(os.path.join(here, "..", "ASSUMPTIONS.md"), "w") as o:
    o.write("# Axioms of each theorem\n\nOutput of `Print Assumptions`, generated by tools/gen_assumptions.py. All axioms are the standard library's:\n\n"
            "* `sig_forall_dec`, `sig_not_dec`: `Coq.Reals.ClassicalDedekindReals` (the real numbers)\n"
            "* `functional_extensionality_dep`: `Coq.Logic.FunctionalExtensionality`\n* `classic`: `Coq.Logic.Classical_Prop`\n\n| theorem | file | axioms |\n|---|---|---|\n")
    for n, f, ax in rows:
        for a in ax: assert a in short, (n, a)
        o.write(f"| {n} | {f} | {', '.join(short[a] for a in ax) or 'none'} |\n")
print(len(rows))
