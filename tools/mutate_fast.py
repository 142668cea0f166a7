"""Apply single edits to scratch copies of the model and rebuild only what leads to the files that mention the edited definition.
usage: python3 mutate_fast.py batch.json out.jsonl [workers]   (batch: list of {file, def, old, new, claim})
MUT_SRC must be a compiled tree.  The first file that does not build ends the run of an edit."""
import json, os, re, shutil, subprocess, sys
from concurrent.futures import ThreadPoolExecutor
from queue import Queue
SRC = os.environ.get("MUT_SRC", "/verif/rocq")

def dep_graph():
    files = [l.strip() for l in open(SRC + "/_CoqProject") if l.strip().endswith(".v")]
    out = subprocess.run(["coqdep", "-Q", "theories", "Verif"] + files, cwd=SRC, capture_output=True, text=True).stdout
    deps = {}
    for l in out.splitlines():
        m = re.match(r"theories/(\w+)\.vo\b.*?: (.*)", l)
        if m: deps[m.group(1)] = set(re.findall(r"theories/(\w+)\.vo\b", m.group(2)))
    order, seen = [], set()
    def visit(f):
        if f in seen: return
        seen.add(f)
        for d in sorted(deps[f]): visit(d)
        order.append(f)
    for f in sorted(deps): visit(f)
    return deps, order

def enclosing(path, line):
    name = None
    for i, l in enumerate(open(path), 1):
        m = re.match(r"\s*(Theorem|Lemma|Example|Definition|Corollary|Fixpoint)\s+(\w+)", l)
        if i > line: break
        if m: name = m.group(2)
    return name

def run(m, dst, deps, order, anc):
    f = m["file"][:-2]
    p = f"{dst}/theories/{m['file']}"
    s = open(f"{SRC}/theories/{m['file']}").read()
    if s.count(m["old"]) != 1: return {"skip": s.count(m["old"]), **m}
    word = re.compile(r"\b" + re.escape(m["def"]) + r"\b")
    users = {g for g in order if f in anc[g] and word.search(open(f"{SRC}/theories/{g}.v").read())}
    # definitions of the same file that call this one are followed too
    names = {m["def"]}; body = re.split(r"(?m)^(?=Definition|Fixpoint|Lemma|Theorem)", s)
    for _ in range(4):
        for b in body:
            h = re.match(r"(?:Definition|Fixpoint)\s+(\w+)", b)
            if h and h.group(1) not in names and any(re.search(r"\b%s\b" % re.escape(n), b) for n in names): names.add(h.group(1))
    if len(names) > 1:
        w2 = re.compile(r"\b(" + "|".join(map(re.escape, names)) + r")\b")
        users |= {g for g in order if f in anc[g] and w2.search(open(f"{SRC}/theories/{g}.v").read())}
    need = {f} | users | {h for g in users for h in anc[g] if f in anc[h]}
    todo = [g for g in order if g in need]
    open(p, "w").write(s.replace(m["old"], m["new"]))
    failed, done = [], []
    for g in todo:
        done.append(g)
        try: r = subprocess.run(["coqc", "-w", "none", "-Q", "theories", "Verif", f"theories/{g}.v"], cwd=dst, capture_output=True, text=True, timeout=1500)
        except subprocess.TimeoutExpired: failed.append(f"{g} (no answer in 25 minutes)"); break
        if r.returncode:
            x = re.search(r'line (\d+), characters [\d-]+:\nError', r.stdout + r.stderr)
            failed.append(f"{g}." + str(enclosing(f"{dst}/theories/{g}.v", int(x.group(1)))) if x else g + " " + (r.stdout + r.stderr)[-200:]); break
    for g in done:
        for e in (".v", ".vo", ".vok", ".vos", ".glob"):
            if os.path.exists(f"{SRC}/theories/{g}{e}"): shutil.copy2(f"{SRC}/theories/{g}{e}", f"{dst}/theories/{g}{e}")
    return {"definition": m["def"], "edit": f"{m['old']!r} -> {m['new']!r}", "claim": m["claim"], "theorems_failed": failed,
            "property_files_not_built": [g + ".v" for g in todo if g.startswith("Prop") and g not in done[:-1]] if failed else [], "tightened": m.get("tightened", [])}

def main(batch, out, workers=2):
    deps, order = dep_graph()
    anc = {}
    for g in order:
        anc[g] = set(deps[g])
        for d in deps[g]: anc[g] |= anc[d]
    q = Queue()
    for i in range(workers):
        dst = f"/tmp/mutf/{i}"
        shutil.rmtree(dst, ignore_errors=True); os.makedirs("/tmp/mutf", exist_ok=True)
        subprocess.run(["cp", "-a", SRC, dst], check=True); q.put(dst)
    def job(m):
        dst = q.get()
        try: r = run(m, dst, deps, order, anc)
        finally: q.put(dst)
        open(out, "a").write(json.dumps(r) + "\n")
        print(m["def"], "|", m["new"][:60].replace("\n", " "), "|", r.get("theorems_failed") or ("SKIP" if "skip" in r else "*** SURVIVED ***"), flush=True)
    with ThreadPoolExecutor(workers) as ex: list(ex.map(job, json.load(open(batch))))
main(sys.argv[1], sys.argv[2], int(sys.argv[3]) if len(sys.argv) > 3 else 2)
