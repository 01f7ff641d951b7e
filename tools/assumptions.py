"""Write ASSUMPTIONS.md: what Print Assumptions lists for each theorem of the manifest.
Needs a finished build in rocq/."""
import glob, json, os, re, subprocess, sys, tempfile
from concurrent.futures import ThreadPoolExecutor

ROOT = os.path.dirname(os.path.dirname(os.path.abspath(__file__)))
ROCQ = sys.argv[1] if len(sys.argv) > 1 else os.path.join(ROOT, "rocq")


def blocks(path, tmp):
    """The theory is required but nothing is imported, so that Print Assumptions gives every name with its module."""
    base = os.path.basename(path)[:-2]
    names = re.findall(r"^Print Assumptions (\w+)\.", open(path).read(), re.M)
    query = os.path.join(tmp, "Query" + base + ".v")
    with open(query, "w") as f:
        f.write("Require Verif.%s.\n" % base + "".join("Print Assumptions Verif.%s.%s.\n" % (base, n) for n in names))
    out = subprocess.run(["coqc", "-Q", os.path.join(ROCQ, "theories"), "Verif", query],
                         cwd=tmp, stdout=subprocess.PIPE, stderr=subprocess.DEVNULL, text=True, check=True).stdout
    found = []
    for line in out.splitlines():
        if line == "Closed under the global context":
            found.append([])
        elif line == "Axioms:":
            found.append([])
        elif found and re.match(r"^[\w.']+( :|$)", line):
            found[-1].append(line.split()[0])
    assert len(names) == len(found), (base, len(names), len(found))
    assert all("." in x for l in found for x in l), (base, found)
    return dict(zip(names, found))


with tempfile.TemporaryDirectory() as tmp, ThreadPoolExecutor(3) as pool:
    axioms = {}
    for d in pool.map(lambda p: blocks(p, tmp), sorted(glob.glob(os.path.join(ROCQ, "theories", "Prop*.v")))):
        axioms.update(d)
claims = json.load(open(os.path.join(ROOT, "MANIFEST.json")))["claims"]
theorems = [t for c in claims for t in c["theorems"]]
groups = {}
for t in theorems:
    groups.setdefault(tuple(sorted(axioms[t])), []).append(t)
order = sorted(groups, key=lambda g: (len(g), g))
label = {g: "A%d" % i for i, g in enumerate(order)}
with open(os.path.join(ROOT, "ASSUMPTIONS.md"), "w") as f:
    f.write("# Assumptions of each theorem\n\nGenerated by `tools/assumptions.py` from the output of `Print Assumptions`.\n\n## Sets of axioms\n\n")
    for g in order:
        f.write("* %s (%d theorems): %s\n" % (label[g], len(groups[g]), ", ".join("`%s`" % a for a in g) or "none"))
    f.write("\n## Theorems\n\n| claim | theorem | axioms |\n|---|---|---|\n")
    for c in claims:
        for t in c["theorems"]:
            f.write("| %s | `%s` | %s |\n" % (c["property"], t, label[tuple(sorted(axioms[t]))]))
print(len(theorems), "theorems,", len(order), "sets")
