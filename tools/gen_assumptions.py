"""Rewrite section 2.1 of DESIGN.md from what Print Assumptions says.

Needs a finished build in rocq/. Run from anywhere: python3 /verif/tools/gen_assumptions.py
"""
import glob, json, os, re, subprocess, tempfile

ROOT = os.path.dirname(os.path.dirname(os.path.abspath(__file__)))
TH = ROOT + "/rocq/theories"
names = []
for c in json.load(open(ROOT + "/MANIFEST.json"))["claims"]:
    for t in c["theorems"]:
        if t not in names:
            names.append(t)
loc = {}
for f in sorted(glob.glob(TH + "/*.v")):
    for t in re.findall(r"^\s*(?:Theorem|Lemma|Corollary)\s+(\w+)", open(f).read(), re.M):
        loc.setdefault(t, os.path.basename(f)[:-2])
src = "From Coq Require Import String.\n"
src += "".join("From Verif Require %s.\n" % m for m in sorted({loc[t] for t in names}))
for t in names:
    src += 'Check "@@%s"%%string.\nPrint Assumptions Verif.%s.%s.\n' % (t, loc[t], t)
d = tempfile.mkdtemp()
open(d + "/as.v", "w").write(src)
out = subprocess.run(["coqc", "-Q", "theories", "Verif", d + "/as.v"], cwd=ROOT + "/rocq",
                     capture_output=True, text=True)
assert out.returncode == 0, out.stderr
res, cur = {}, None
for l in out.stdout.splitlines():
    g = re.match(r'^"@@(\w+)"', l)
    if g:
        cur = g.group(1)
        res[cur] = []
        continue
    g = re.match(r"^([\w.]+)\s*(:|$)", l)
    if cur and g and g.group(1) != "Axioms":
        res[cur].append(g.group(1))
groups = {}
for t in names:
    groups.setdefault(tuple(sorted(res[t])), []).append(t)
text = ""
for k in sorted(groups, key=lambda k: (len(k), k)):
    head = "Closed under the global context (no axioms)" if not k else ", ".join("`%s`" % a for a in k)
    text += "* %s — %d theorems:\n  %s\n" % (head, len(groups[k]), ", ".join("`%s`" % t for t in groups[k]))
p = ROOT + "/DESIGN.md"
s = open(p).read()
a, b = "<!-- assumptions -->\n", "<!-- /assumptions -->\n"
i, j = s.index(a) + len(a), s.index(b)
open(p, "w").write(s[:i] + text + s[j:])
print({k: len(v) for k, v in groups.items()})
