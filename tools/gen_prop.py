#!/usr/bin/env python3
"""Generate rocq/theories/Prop*.v from rocq/theories/Proofs*.v.

Every `Lemma Cnn_name_proof ...` of a Proofs file is restated, together with
the comment above it, as `Theorem Cnn_name` (or `Example` if the name contains
`_example`) in the corresponding Prop file, proved by `exact`, and followed by
`Print Assumptions`.  Section-local lemmas are not supported on purpose: every
oracle must be a visible quantifier of the statement."""
import re, pathlib
T = pathlib.Path(__file__).resolve().parent.parent / "rocq" / "theories"
PAT = re.compile(r"((?:^\(\*\*(?:(?!\*\)).)*?\*\)\n)?)^Lemma (C\d\d+_\w+?)_proof\b(.*?)\nProof\.", re.S | re.M)
for f in sorted(T.glob("Proofs*.v")):
    src = f.read_text()
    items = PAT.findall(src)
    if not items:
        continue
    name = f.stem.replace("Proofs", "Prop")
    imports = []
    for m in re.finditer(r"^(From (?:Coq|Coquelicot|Verif) Require Import [^.]*\.|Import ListNotations\.|(?:Local )?Open Scope \w+\.)\s*$", src, re.M | re.S):
        imports.append(m.group(1))
    out = ["(** * Properties (generated by tools/gen_prop.py from %s.v; statements" % f.stem,
           "    only, each proved there) *)"]
    out += imports
    out.append("From Verif Require Import %s." % f.stem)
    out.append("")
    for com, nm, stmt in items:
        kind = "Example" if "_example" in nm else "Theorem"
        if com.strip():
            out.append(com.rstrip())
        assert stmt.lstrip().startswith(":"), nm
        out.append("%s %s%s\nProof. exact %s_proof. Qed." % (kind, nm, stmt, nm))
        if kind == "Theorem":
            out.append("Print Assumptions %s." % nm)
        out.append("")
    g = T / (name + ".v")
    txt = "\n".join(out)
    if not g.exists() or g.read_text() != txt:
        g.write_text(txt)
# _CoqProject: keep the order of the hand-written files, append generated ones
cp = T.parent / "_CoqProject"
lines = [l for l in cp.read_text().split("\n") if l and not re.match(r"theories/Prop[A-Z]", l)]
lines += ["theories/%s" % p.name for p in sorted(T.glob("Prop[A-Z]*.v"))]
cp.write_text("\n".join(lines) + "\n")
