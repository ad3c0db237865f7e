#!/usr/bin/env python3
"""Print the axioms of every property theorem, grouped by axiom set (run after a build; writes Markdown to stdout)."""
import glob, os, re, subprocess, collections, tempfile
root = os.path.join(os.path.dirname(os.path.abspath(__file__)), "..", "rocq", "theories")
groups = collections.defaultdict(list)
for f in sorted(glob.glob(os.path.join(root, "Props*.v"))):
    mod = os.path.basename(f)[:-2]
    names = re.findall(r"^Theorem (C\d+_\w+)", open(f).read(), re.M)
    with tempfile.TemporaryDirectory() as d:
        src = os.path.join(d, "pa.v")
        with open(src, "w") as o:
            o.write("From Verif Require Import %s.\n" % mod)
            for n in names:
                o.write('Goal True. idtac "@@%s". exact I. Qed.\nPrint Assumptions %s.%s.\n' % (n, mod, n))
        out = subprocess.run(["coqc", "-Q", root, "Verif", src], capture_output=True, text=True).stdout
    for part in out.split("@@")[1:]:
        name, _, rest = part.partition("\n")
        ax = [l.split(" :")[0].strip() for l in rest.splitlines() if re.match(r"[A-Za-z_.']+( :|$)", l) and l.strip() not in ("Axioms:",)]
        ax = sorted(a for a in ax if a and a != "Closed under the global context" and not a.startswith("Closed"))
        groups[tuple(ax)].append(name.strip())
for ax, names in sorted(groups.items()):
    print("* " + (", ".join("`%s`" % a for a in ax) or "no axioms") + ":\n  " + ", ".join(sorted(set(names))) + "\n")
