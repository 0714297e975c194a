#!/usr/bin/env python3
"""Run the Print Assumptions commands of every Prop*.v (the theories must be
built) and write their answers as the last section of DESIGN.md."""
import re, pathlib, subprocess, tempfile
ROOT = pathlib.Path(__file__).resolve().parent.parent
T = ROOT / "rocq" / "theories"
CODE = {"ClassicalDedekindReals.sig_not_dec": "N", "ClassicalDedekindReals.sig_forall_dec": "D",
        "FunctionalExtensionality.functional_extensionality_dep": "F", "Classical_Prop.classic": "C"}
rows = {}
for f in sorted(T.glob("Prop*.v")):
    names = re.findall(r"^Print Assumptions (\w+)\.", f.read_text(), re.M)
    if not names:
        continue
    with tempfile.TemporaryDirectory() as d:
        g = pathlib.Path(d) / "Q.v"
        head = [l for l in re.findall(r"^From Verif Require Import [^.]*\.", f.read_text(), re.M)]
        g.write_text("From Verif Require Import %s.\n" % f.stem +
                     "".join("Print Assumptions %s.\n" % n for n in names))
        out = subprocess.run(["coqc", "-Q", str(T), "Verif", str(g)], capture_output=True, text=True)
        assert out.returncode == 0, out.stderr
    blocks = re.split(r"^(?=Closed under|Axioms:)", out.stdout, flags=re.M)[1:]
    assert len(blocks) == len(names), (f, len(blocks), len(names))
    for n, b in zip(names, blocks):
        ax = re.findall(r"^([A-Za-z_.]+) *(?::|$)", b, re.M)
        ax = [a for a in ax if a != "Axioms"]
        if b.startswith("Closed"):
            ax = []
        for a in ax:
            assert a in CODE, (n, a)
        rows[n] = "".join(sorted({CODE[a] for a in ax})) or "none"
sec = ["## Appendix: what `Print Assumptions` lists for each theorem", "",
       "Generated by `tools/gen_assumptions.py`.  D = `ClassicalDedekindReals.sig_forall_dec`,",
       "N = `ClassicalDedekindReals.sig_not_dec`,",
       "F = `FunctionalExtensionality.functional_extensionality_dep`, C = `Classical_Prop.classic`.", ""]
groups = {}
for n, a in rows.items():
    groups.setdefault(a, []).append(n)
for a in sorted(groups):
    sec += ["* **%s** (%d): %s" % (a, len(groups[a]), ", ".join("`%s`" % n for n in sorted(groups[a])))]
p = ROOT / "DESIGN.md"
s = p.read_text().split("## Appendix: what")[0].rstrip() + "\n\n" + "\n".join(sec) + "\n"
p.write_text(s)
print(len(rows), {a: len(g) for a, g in groups.items()})
