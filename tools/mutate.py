"""Apply realistic bugs to a scratch copy of the model, rebuild, and log which theorems fail.
usage: python3 mutate.py batch.json   (list of {file, def, old, new, claim})"""
import json, os, re, shutil, subprocess, sys
SRC = os.environ.get("MUT_SRC", "/verif/rocq"); DST = "/tmp/mut/rocq"; LOG = "/verif/seeded/LOG.jsonl"

def enclosing(path, line):
    name = None
    for i, l in enumerate(open(path), 1):
        m = re.match(r"\s*(Theorem|Lemma|Example|Definition|Corollary|Fixpoint)\s+(\w+)", l)
        if i > line: break
        if m: name = m.group(2)
    return name

def main(batch):
    for m in json.load(open(batch)):
        os.makedirs("/tmp/mut", exist_ok=True)
        subprocess.run(["rsync", "-a", "--delete", SRC + "/", DST + "/"], check=True) if shutil.which("rsync") else (
            shutil.rmtree(DST, ignore_errors=True), subprocess.run(["cp", "-a", SRC, DST], check=True))
        p = f"{DST}/theories/{m['file']}"
        s = open(p).read()
        if s.count(m["old"]) != 1:
            print("SKIP (occurrences", s.count(m["old"]), ")", m["def"], m["old"]); continue
        open(p, "w").write(s.replace(m["old"], m["new"]))
        subprocess.run("coq_makefile -f _CoqProject -o Makefile", shell=True, cwd=DST, stdout=subprocess.DEVNULL)
        r = subprocess.run("make -k -j2", shell=True, cwd=DST, capture_output=True, text=True)
        out = r.stdout + r.stderr
        failed = []
        for f, l in re.findall(r'File "\./theories/(\w+\.v)", line (\d+), characters [\d-]+:\nError', out):
            n = enclosing(f"{DST}/theories/{f}", int(l))
            failed.append(f"{f[:-2]}.{n}")
        missing = [f for f in sorted(os.listdir(f"{DST}/theories")) if f.startswith("Prop") and f.endswith(".v")
                   and not os.path.exists(f"{DST}/theories/{f}o")]
        rec = {"definition": m["def"], "edit": f"{m['old']!r} -> {m['new']!r}", "claim": m["claim"],
               "theorems_failed": failed, "property_files_not_built": missing, "tightened": m.get("tightened", [])}
        open(LOG, "a").write(json.dumps(rec) + "\n")
        print(m["def"], "|", m["new"][:50], "|", failed or "*** SURVIVED ***", flush=True)
main(sys.argv[1])
