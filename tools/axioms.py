#!/usr/bin/env python3
"""Rewrite the section "Axioms per theorem" of DESIGN.md from Print Assumptions (needs a built tree)."""
import glob, json, os, re, subprocess, tempfile
root = os.path.dirname(os.path.dirname(os.path.abspath(__file__)))
thy = os.path.join(root, "rocq", "theories")
groups = {}
for f in sorted(glob.glob(os.path.join(thy, "*Properties.v"))):
    mod = os.path.basename(f)[:-2]
    names = re.findall(r"^(?:Theorem|Corollary) (C\d+\w*)", open(f).read(), re.M)
    with tempfile.TemporaryDirectory() as t:
        q = os.path.join(t, "q.v")
        with open(q, "w") as o:
            o.write("From Verif Require %s.\n" % mod)
            for n in names:
                o.write('Print Assumptions %s.%s.\n' % (mod, n))
        out = subprocess.run(["coqc", "-Q", thy, "Verif", q], capture_output=True, text=True, check=True).stdout
    parts = re.split(r"^(?=Closed under the global context|Axioms:)", out, flags=re.M)[1:]
    assert len(parts) == len(names), (mod, len(parts), len(names))
    for n, p in zip(names, parts):
        ax = tuple(sorted(re.findall(r"^(\S+)(?: *:|$)", p.split("\n", 1)[1], re.M))) if p.startswith("Axioms:") else ()
        groups.setdefault(ax, []).append(n)
key = lambda n: (int(re.match(r"C(\d+)", n).group(1)), n)
text = ["## Axioms per theorem", "", "What `Print Assumptions` lists, grouped; generated by `tools/axioms.py`.", ""]
for ax in sorted(groups, key=len):
    text.append("* " + ("none (closed under the global context)" if not ax else ", ".join("`%s`" % a for a in ax)) + ": "
                + ", ".join(sorted(groups[ax], key=key)) + ".")
p = os.path.join(root, "DESIGN.md")
s = open(p).read()
i = s.find("## Axioms per theorem")
s = (s if i < 0 else s[:i]).rstrip() + "\n\n" + "\n".join(text) + "\n"
open(p, "w").write(s)
print({len(a): len(v) for a, v in groups.items()})
for a in groups: print(a, len(groups[a]))
