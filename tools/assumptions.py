"""Rewrites the section "Assumptions per theorem" of DESIGN.md: asks Coq for the
assumptions of every theorem named in MANIFEST.json. Needs a built tree."""
import collections, glob, json, os, re, subprocess, sys, tempfile

R = "/verif/rocq/theories"
S = {"ClassicalDedekindReals.sig_forall_dec": "sig_forall_dec", "ClassicalDedekindReals.sig_not_dec": "sig_not_dec",
     "Classical_Prop.classic": "classic", "FunctionalExtensionality.functional_extensionality_dep": "functional_extensionality_dep"}

def collect(out):
    ths = [t for c in json.load(open("/verif/MANIFEST.json"))["claims"] for t in c["theorems"]]
    where = {}
    for f in glob.glob(R + "/Props_*.v"):
        for n in re.findall(r"^(?:Theorem|Lemma|Corollary|Example)\s+(\w+)", open(f).read(), re.M):
            where[n] = os.path.basename(f)[:-2]
    src = out + "/Asm.v"
    with open(src, "w") as o:
        for m in sorted({where[t] for t in ths}):
            o.write(f"From Verif Require {m}.\n")
        for t in ths:
            o.write(f'Redirect "{out}/{t}" Print Assumptions {where[t]}.{t}.\n')
    subprocess.run(["coqc", "-Q", R, "Verif", src], check=True, stdout=subprocess.DEVNULL)
    return ths

def main():
    if len(sys.argv) > 1:
        out = sys.argv[1]
        ths = [t for c in json.load(open("/verif/MANIFEST.json"))["claims"] for t in c["theorems"]]
    else:
        out = tempfile.mkdtemp(); ths = collect(out)
    groups = collections.defaultdict(list)
    for t in ths:
        s = open(f"{out}/{t}.out").read()
        if "Closed under the global context" in s:
            groups[()].append(t); continue
        ax = sorted(set(re.findall(r"^([A-Za-z_][\w.]*)\s*(?::|$)", s.replace("Axioms:", ""), re.M)))
        assert ax and all(a in S for a in ax), (t, ax)
        groups[tuple(S[a] for a in ax)].append(t)
    text = "## Assumptions per theorem\n\nWhat `Print Assumptions` reports (written by `tools/assumptions.py`); the axioms are the standard library's.\n"
    for ax in sorted(groups, key=lambda a: (len(a), a)):
        text += "\n* " + (", ".join(f"`{a}`" for a in ax) if ax else "none (closed under the global context)") + f" ({len(groups[ax])}): "
        text += ", ".join(groups[ax]) + ".\n"
    p = "/verif/DESIGN.md"; d = open(p).read()
    i = d.find("## Assumptions per theorem")
    open(p, "w").write((d if i < 0 else d[:i]).rstrip("\n") + "\n\n" + text)
    print({" ".join(a) or "none": len(l) for a, l in groups.items()})

main()
