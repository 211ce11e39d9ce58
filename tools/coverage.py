#!/usr/bin/env python3
"""Rewrite the section "Sources and their models" of DESIGN.md (needs /repo)."""
import glob, os, re
root = os.path.dirname(os.path.dirname(os.path.abspath(__file__)))
src = "/repo/librapid"
models = {f: re.sub(r'"[^"\n]*"', "", open(f).read()) for f in sorted(glob.glob(os.path.join(root, "rocq", "theories", "*Model.v")))}
done, none = {}, []
for d, _, fs in sorted(os.walk(src)):
    for f in sorted(fs):
        if not re.search(r"\.(hpp|cpp|tcc|cl|cu|cuh)$", f): continue
        rel = os.path.relpath(os.path.join(d, f), src).replace("include/librapid/", "")
        ms = [os.path.basename(m)[:-7] for m, t in models.items() if re.search(r"\b" + re.escape(f), t)]
        if ms: done[rel] = ms
        else: none.append(rel)
text = ["## Sources and their models", "",
        "Which part (`XModel.v`) cites which source file; the comments give the lines.  A cited file is not",
        "modelled line by line: what is left out is said in the comment at the definition.", ""]
by = {}
for f, ms in done.items(): by.setdefault(", ".join(ms), []).append(f)
text += ["| source | models |", "|---|---|"] + ["| %s | %s |" % (", ".join("`%s`" % x for x in fs), m) for m, fs in sorted(by.items())]
text += ["", "No model: " + ", ".join("`%s`" % x for x in none if not x.startswith("cxxblas")) + "; `cxxblas/` except the files above.", ""]
p = os.path.join(root, "DESIGN.md"); s = open(p).read()
a = s.find("## Sources and their models"); b = s.find("## Axioms per theorem")
if b < 0: b = len(s)
s = s[: a if a >= 0 else b].rstrip() + "\n\n" + "\n".join(text) + "\n" + s[b:]
open(p, "w").write(s)
