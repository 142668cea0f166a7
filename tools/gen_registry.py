"""Write rocq/theories/RegTables.v: the calls of register() in /repo, in the order in which they run when the package is imported.
Identifiers are resolved through imports and assignments to the function (file and name in its def statement)."""
import ast, os
R = "/repo/quadpy"
def modfile(parts):
    p = os.path.join(R, *parts)
    if os.path.isdir(p): return p + "/__init__.py"
    return p + ".py" if os.path.exists(p + ".py") else None
cache = {}
def parse(parts):
    f = modfile(parts)
    if f not in cache: cache[f] = (ast.parse(open(f).read()), f)
    return cache[f]
def target(cur, ispkg, node):
    base = list(cur) if ispkg else list(cur[:-1])
    for _ in range(node.level - 1): base = base[:-1]
    if node.module: base += node.module.split(".")
    return base
def lookup(parts, name):
    t, f = parse(parts); ispkg = f.endswith("__init__.py"); res = None
    for n in t.body:
        if isinstance(n, ast.FunctionDef) and n.name == name:
            assert res is None, (parts, name); res = (name, f, n.lineno)
        elif isinstance(n, ast.Assign) and any(getattr(x, "id", "") == name for x in n.targets):
            assert isinstance(n.value, ast.Name), (parts, name); res = lookup(parts, n.value.id)
        elif isinstance(n, ast.ImportFrom):
            for a in n.names:
                if (a.asname or a.name) == name: res = lookup(target(parts, ispkg, n), a.name)
    assert res, (parts, name)
    return res
def calls(dom):
    out, loaded = [], set()
    def load(parts):
        parts = tuple(parts)
        if parts in loaded or modfile(parts) is None: return
        loaded.add(parts)
        t, f = parse(parts); ispkg = f.endswith("__init__.py")
        for n in t.body:
            if isinstance(n, ast.ImportFrom) and n.level > 0:
                mp = target(parts, ispkg, n)
                if mp and mp[0] == dom:
                    load(mp)
                    for a in n.names: load(mp + [a.name])
            elif isinstance(n, ast.Expr) and isinstance(n.value, ast.Call) and getattr(n.value.func, "id", "") == "register":
                out.append((f, n.lineno, n.end_lineno, [(x.id, lookup(parts, x.id)) for x in n.value.args[0].elts]))
            else: assert "register(" not in ast.unparse(n) or isinstance(n, (ast.FunctionDef, ast.ClassDef)), f
    load((dom,))
    return out
def rel(f): return os.path.relpath(f, R)
DOMS = ["c2", "c3", "e2r", "e2r2", "e3r", "e3r2", "s2", "s3", "t2", "t3", "u2", "u3"]
L = ["(** Generated by tools/gen_registry.py from /repo: for each domain the calls of register(), in the order of the imports.",
     "    [own x]: the function x defined in the file of the call.  [from id file name]: the identifier id in the list is bound, by an",
     "    import or an assignment, to the function defined as name in file. *)",
     "From Coq Require Import List String.", "From Verif Require Import RegModel.", "Import ListNotations.", "Open Scope string_scope.", ""]
for d in DOMS:
    L.append(f"Definition {d}_calls : list call :=\n  [")
    items = []
    for f, a, b, ents in calls(d):
        es = []
        for i, (nm, ff, _) in ents:
            es.append(f'own "{i}"' if (nm == i and ff == f) else f'from "{i}" "{rel(ff)}" "{nm}"')
        lines, cur = [], "      "
        for e in es:
            if len(cur) + len(e) > 128: lines.append(cur); cur = "      "
            cur += e + "; "
        lines.append(cur)
        body = "\n".join(lines).rstrip("; ").strip()
        items.append(f'   (** {rel(f)}:{a}-{b} *)\n   ("{rel(f)}",\n     [{body}])')
    L.append(";\n".join(items) + "].")
open("/verif/rocq/theories/RegTables.v", "w").write("\n".join(L) + "\n")
