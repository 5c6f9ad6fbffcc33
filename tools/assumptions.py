#!/usr/bin/env python3
"""Regenerate ASSUMPTIONS.md: what Print Assumptions lists for each property theorem.

Run after building: python3 tools/assumptions.py
"""
import glob, hashlib, os, re, subprocess, tempfile
from concurrent.futures import ThreadPoolExecutor
root = os.path.dirname(os.path.dirname(os.path.abspath(__file__)))
th = os.path.join(root, "rocq", "theories")
groups, order = {}, []
cache = os.path.join(tempfile.gettempdir(), "assumptions-cache")  # keyed by the compiled file
os.makedirs(cache, exist_ok=True)


def printed(f):
    mod = os.path.basename(f)[:-2]
    names = re.findall(r"^Theorem (C\d+_\w+)", open(f).read(), re.M)
    if not names:
        return ""
    key = os.path.join(cache, hashlib.sha256(open(f[:-2] + ".vo", "rb").read()).hexdigest())
    if os.path.exists(key):
        return open(key).read()
    d = tempfile.mkdtemp()
    src = os.path.join(d, "a.v")
    with open(src, "w") as o:
        o.write("From Verif Require %s.\n" % mod)
        for n in names:
            o.write('Goal True. idtac "@@%s". exact I. Qed.\nPrint Assumptions Verif.%s.%s.\n' % (n, mod, n))
    out = subprocess.run(["coqc", "-q", "-Q", th, "Verif", src], capture_output=True, text=True)
    if out.returncode:
        raise SystemExit(out.stderr)
    with open(key, "w") as o:
        o.write(out.stdout)
    return out.stdout


with ThreadPoolExecutor(3) as ex:
    outs = list(ex.map(printed, sorted(glob.glob(os.path.join(th, "Prop*.v")))))
for stdout in outs:
    for part in stdout.split("@@")[1:]:
        name, _, body = part.partition("\n")
        ax = frozenset(re.findall(r"^([A-Za-z_][\w.']*)\s*(?::|$)", body, re.M)) - {"Axioms", "Closed"}
        if ax not in groups:
            groups[ax] = []
            order.append(ax)
        groups[ax].append(name)
real = frozenset(["ClassicalDedekindReals.sig_not_dec", "ClassicalDedekindReals.sig_forall_dec",
                  "FunctionalExtensionality.functional_extensionality_dep", "Classical_Prop.classic"])
with open(os.path.join(root, "ASSUMPTIONS.md"), "w") as o:
    o.write("# What `Print Assumptions` lists for each property theorem\n\n"
            "Generated by `tools/assumptions.py`. All names are axioms or primitives of Coq's standard library.\n")
    for ax in sorted(order, key=lambda a: (len(a), sorted(a))):
        o.write("\n## %s\n\n" % ("Closed under the global context" if not ax else "%d axioms/primitives" % len(ax)))
        if ax:
            o.write("".join("* `%s`\n" % a for a in sorted(ax)) + "\n")
        o.write("Theorems (%d): %s\n" % (len(groups[ax]), ", ".join("`%s`" % n for n in sorted(groups[ax]))))
for ax in order:
    print(len(groups[ax]), sorted(ax)[:6], len(ax))
