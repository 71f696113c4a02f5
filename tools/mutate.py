"""Try wrong programs: python3 tools/mutate.py mutants.json [id ...]

Each mutant is {"id", "definition", "file", "old", "new", "edit", "claim"}: one
textual replacement in a model file.  In a scratch copy outside this directory
the model is edited and rebuilt; a proof that fails is replaced by Admitted and
the build goes on, and at the end the property theorems that rest on a failed
proof are collected.  One line per mutant is added to seeded/LOG.jsonl.
"""
import json
import os
import re
import shutil
import subprocess
import sys

HERE = os.path.dirname(os.path.dirname(os.path.abspath(__file__)))
BASE = "/tmp/mutate-base"
WORK = "/tmp/mutate-work"
HEAD = re.compile(r"^\s*(?:#\[[^]]*\]\s*)?(?:Local |Global )?(Lemma|Theorem|Example|Corollary|Fact|Remark|Instance|Program Definition|Definition|Fixpoint)\s+([A-Za-z0-9_']+)", re.M)


def run(cmd, cwd, timeout=6000):
    return subprocess.run(cmd, cwd=cwd, shell=True, capture_output=True, text=True, timeout=timeout)


def prepare():
    if os.path.exists(BASE):
        shutil.rmtree(BASE)
    shutil.copytree(HERE + "/rocq", BASE)
    run("coq_makefile -f _CoqProject -o Makefile && make -j3", BASE)


def admit(path, line):
    """Replace the proof around the line by Admitted; the name of the lemma."""
    text = open(path).read()
    offset = sum(len(l) + 1 for l in text.split("\n")[: line - 1])
    heads = [m for m in HEAD.finditer(text) if m.start() <= offset + 1]
    if not heads:
        return None
    m = heads[-1]
    end = re.compile(r"\b(Qed|Defined)\.").search(text, m.start())
    proof = re.compile(r"\bProof\b[^.]*\.").search(text, m.start())
    if not end or not proof or proof.start() > end.start():
        return None
    if offset > end.end():
        return None
    text = text[: proof.start()] + "Proof. Admitted." + "\n" * text[proof.start():end.end()].count("\n") + text[end.end():]
    open(path, "w").write(text)
    return m.group(2)


def build(work, edited=None):
    failed = []
    for _ in range(80):
        r = run("nice make -k -j2 COQEXTRAFLAGS='-set \"Default Timeout=90\"' 2>&1", work)
        errors = re.findall(r'File "\./(theories/\w+\.v)", line (\d+), characters [^\n]*\n(?:Error|.*\nError)', r.stdout)
        if not errors:
            if "Error" in r.stdout:
                print(r.stdout[-2000:])
                return failed, "unreadable error"
            return failed, None
        for f, line in dict(errors).items():
            if f == edited:
                # the edited file has no proofs: the edit itself is ill-formed
                print(r.stdout[-1500:])
                return failed, "the edited model does not compile"
            name = admit(work + "/" + f, int(line))
            if name is None:
                print(f, line)
                return failed, "cannot localise the failure in %s line %s" % (f, line)
            failed.append(os.path.basename(f)[:-2] + "." + name)
    return failed, "too many failures"


def theorems(work):
    """The property theorems and examples that rest on a failed proof"""
    manifest = json.load(open(HERE + "/MANIFEST.json"))
    names = [t for c in manifest["claims"] for t in c["theorems"]]
    where = {}
    for f in os.listdir(work + "/theories"):
        if f.startswith("Props_") and f.endswith(".v"):
            text = open(work + "/theories/" + f).read()
            for n in re.findall(r"^Theorem (\w+)", text, re.M):
                where[n] = f[:-2]
    mods = sorted(set(where.values()))
    src = "From Verif Require Import %s.\n" % " ".join(mods)
    src += "".join('Goal True. idtac "THM %s". exact I. Qed.\nPrint Assumptions %s.\n' % (n, n) for n in names if n in where)
    open(work + "/theories/zz_check.v", "w").write(src)
    r = run("coqc -Q theories Verif theories/zz_check.v", work)
    out = []
    for block in r.stdout.split("THM ")[1:]:
        name = block.split()[0]
        axioms = re.findall(r"^([\w.']+)\s*:", block, re.M)
        bad = [a for a in axioms if a in ADMITTED]
        if bad:
            out.append(name)
    if "Error" in r.stderr:
        print(r.stderr[-800:])
    return out


ADMITTED = set()


def main():
    mutants = json.load(open(sys.argv[1]))
    only = sys.argv[2:]
    log = HERE + "/seeded/LOG.jsonl"
    if not os.path.exists(BASE):
        prepare()
    tried = set()
    if os.path.exists(log):
        tried = {json.loads(l).get("id") for l in open(log)}
    for m in mutants:
        if only and m["id"] not in only:
            continue
        if not only and m["id"] in tried:
            continue
        if os.path.exists(WORK):
            shutil.rmtree(WORK)
        run("cp -a %s %s" % (BASE, WORK), "/")
        path = WORK + "/theories/" + m["file"]
        text = open(path).read()
        if text.count(m["old"]) != 1:
            print(m["id"], "replacement text occurs", text.count(m["old"]), "times")
            continue
        open(path, "w").write(text.replace(m["old"], m["new"]))
        failed, problem = build(WORK, "theories/" + m["file"])
        if problem:
            print(m["id"], "PROBLEM:", problem, failed)
            continue
        ADMITTED.clear()
        ADMITTED.update(f.split(".")[1] for f in failed)
        ADMITTED.update(failed)
        thms = theorems(WORK)
        print(m["id"], m["edit"], "| lemmas:", failed, "| theorems:", thms, flush=True)
        entry = {
            "id": m["id"],
            "definition": m["definition"],
            "edit": m["edit"],
            "claim": m["claim"],
            "failed": thms,
            "failed_examples_and_lemmas": failed,
            "tightened": m.get("tightened", []),
        }
        with open(log, "a") as f:
            f.write(json.dumps(entry) + "\n")


if __name__ == "__main__":
    main()
