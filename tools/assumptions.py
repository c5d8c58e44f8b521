"""Print Assumptions for every theorem of MANIFEST.json, grouped by axiom set, written between markers in DESIGN.md.
Run from /verif after a build."""
import glob, json, os, re, subprocess, tempfile

names = [t for c in json.load(open("MANIFEST.json"))["claims"] for t in c["theorems"]]
mods = [os.path.basename(f)[:-2] for f in sorted(glob.glob("rocq/theories/T_*.v"))]
where = {}
for m in mods:
    for t in re.findall(r"^(?:Theorem|Corollary) (\w+)", open(f"rocq/theories/{m}.v").read(), re.M):
        where[t] = m
d = tempfile.mkdtemp()
src = "".join(f"From Verif Require {m}.\n" for m in mods)
for t in names:
    q = f"Verif.{where[t]}.{t}"
    src += f'Goal True. idtac "@@ {t}". exact I. Qed.\nPrint Assumptions {q}.\n'
open(f"{d}/A.v", "w").write(src)
out = subprocess.run(["coqc", "-Q", "rocq/theories", "Verif", f"{d}/A.v"], capture_output=True, text=True)
assert out.returncode == 0, out.stderr[-2000:]
groups, cur = {}, None
per = {}
for line in out.stdout.splitlines():
    if line.startswith("@@ "):
        cur = line[3:]
        per[cur] = set()
    elif cur:
        m = re.match(r"^([A-Za-z_][\w.]*)\s*(:|$)", line)
        if m and m.group(1) != "Axioms":
            per[cur].add(m.group(1))
for t, a in per.items():
    a.discard("Closed")
    groups.setdefault(tuple(sorted(a)), []).append(t)
text = ""
for a, ts in sorted(groups.items(), key=lambda g: len(g[0])):
    text += f"* **{', '.join('`' + x + '`' for x in a) or 'no axioms'}** ({len(ts)}): " + ", ".join(sorted(ts)) + "\n"
s = open("DESIGN.md").read()
b, e = "<!-- assumptions -->\n", "<!-- end assumptions -->"
i, j = s.index(b) + len(b), s.index(e)
open("DESIGN.md", "w").write(s[:i] + text + s[j:])
print(len(per), "theorems", {a: len(t) for a, t in groups.items()})
