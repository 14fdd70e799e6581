#!/usr/bin/env python3
"""Print Assumptions for every theorem of MANIFEST.json, grouped by the axioms listed;
written between the markers of DESIGN.md.  Needs a compiled /verif/rocq."""
import json, os, re, subprocess, tempfile
S = "/verif/rocq"
ths = [t for c in json.load(open("/verif/MANIFEST.json"))["claims"] for t in c["theorems"]]
where = {}
fs = [l.strip() for l in open(S + "/_CoqProject") if l.strip().endswith(".v")]
for f in fs:
    for x in re.finditer(r"^(?:Theorem|Lemma|Corollary) ([A-Za-z0-9_']+)", open(S + "/" + f).read(), re.M):
        where.setdefault(x.group(1), os.path.basename(f)[:-2])
d = tempfile.mkdtemp()
src = "".join("From Verif Require %s.\n" % m for m in sorted(set(where[t] for t in ths)))
for t in ths: src += 'Redirect "%s/%s" Print Assumptions Verif.%s.%s.\n' % (d, t, where[t], t)
open(d + "/chk.v", "w").write(src)
print(subprocess.run("coqc -Q theories Verif %s/chk.v" % d, shell=True, cwd=S, stdout=subprocess.PIPE, stderr=subprocess.STDOUT, text=True).stdout[-300:])
groups = {}
for t in ths:
    o = open("%s/%s.out" % (d, t)).read()
    o = o.replace("Axioms:", "")
    ax = tuple(sorted(set(re.findall(r"^([A-Za-z0-9_'.]+)\s*:", o, re.M)) | set(re.findall(r"^([A-Za-z0-9_'.]+)$", o, re.M))))
    if "Closed under" in o: ax = ()
    groups.setdefault(ax, [])
    if t not in groups[ax]: groups[ax].append(t)
out = ""
for ax in sorted(groups, key=lambda a: -len(groups[a])):
    out += "* " + (", ".join("`%s`" % a for a in ax) if ax else "no axiom (closed under the global context)") + ":\n  " + " ".join(sorted(groups[ax])) + "\n"
p = "/verif/DESIGN.md"
s = open(p).read()
b, e = "<!-- assumptions -->\n", "<!-- end assumptions -->"
if b in s: s = s[:s.index(b) + len(b)] + out + s[s.index(e):]; open(p, "w").write(s)
print(out)
