"""Writes rocq/theories/StengerModel.v from quadpy/{sn,enr2}/{_stenger,_stroud_1967_5}.py."""
import ast
ROOT = "/repo/quadpy/"
out = [r'''(** Model of quadpy/sn/_stenger.py, quadpy/enr2/_stenger.py, quadpy/sn/_stroud_1967_5.py and quadpy/enr2/_stroud_1967_5.py, written by
    tools/gen_stenger.py from the source text.  A decimal literal stands for the exact decimal number and numpy arithmetic is real
    arithmetic; name and source are left out.  A scheme is returned with its test_tolerance (the default of the class if the call
    has no such argument).  The dimension is a natural number; a missing key of a dictionary or a failing assertion gives None. *)
From Coq Require Import Reals List Arith QArith Qreals.
From Verif Require Import Spec CombModel PyBase SymmModel CnModel MsModel S2Model IntegralSpec SphereSpec.
Import ListNotations.
Open Scope R_scope.

(** An entry (B[i], points) of a list of data *)
Definition item (B : list R) (i : nat) (p : option (list point)) : option (R * list point) :=
  let! b := nth_error B i in let! p := p in Some (b, p).
(** ndim.nball.volume(n, symbolic=False) (external package ndim), modelled by what it computes *)
Definition ndim_nball_volume (n : nat) : R := ball_int n 1 (fun _ => 1).
''']
def lit(s, n):
    t = ast.get_source_segment(s, n).replace(" ", "")
    if t[0] == "+": t = t[1:]
    return "(%s)" % t if t[0] == "-" else t
def fill(xs, ind, sep="; "):
    rows, row = [], ""
    for i, x in enumerate(xs):
        t = x + (sep if i < len(xs) - 1 else "")
        if len(row) + len(t) > 118:
            rows.append(row.rstrip()); row = ""
        row += t
    rows.append(row)
    return ("\n" + ind).join(rows)
def pts(c):
    if c.func.id == "z": return "Some (Rz n)"
    assert c.func.id == "fsd"
    its = "; ".join("(%s, %d%%nat)" % (a.elts[0].id, a.elts[1].value) for a in c.args[1:])
    return "Rfsd n [%s]" % its
def items(l):
    return ["item B %d (%s)" % (e.elts[0].slice.value if not isinstance(e.elts[0].slice, ast.Index) else e.elts[0].slice.value.value, pts(e.elts[1])) for e in l.elts]
for dom, dtol in (("sn", "1.0e-14"), ("enr2", "2.7e-14")):
    f = dom + "/_stenger.py"; s = open(ROOT + f).read()
    for fn in ast.parse(s).body:
        if not isinstance(fn, ast.FunctionDef): continue
        dim = fn.args.args[0].arg
        nm = dom + "_" + fn.name
        st = fn.body[0]; names = [x.id for x in st.targets[0].elts]; assert names[-1] == "B" and st.value.slice.id == dim
        d = st.value.value
        out.append("(** %s:%d-%d, the dictionary *)" % (f, st.lineno, st.end_lineno))
        out.append("Definition %s_table (n : nat) : option (%slist Q) := (\n  match n with" % (nm, "Q * " * (len(names) - 1)))
        for k, v in zip(d.keys, d.values):
            out.append("  | %d%%nat => Some (%s, [\n    %s])" % (k.value, ", ".join(lit(s, x) for x in v.elts[:-1]), fill([lit(s, x) for x in v.elts[-1].elts], "    ")))
        out.append("  | _ => None\n  end)%Q.")
        parts, rest = [], fn.body[1:]
        assert ast.unparse(rest[0].targets[0]) == "data"
        parts.append("[%s]" % fill(items(rest[0].value), "     "))
        rest = rest[1:]
        while isinstance(rest[0], ast.If):
            t = rest[0].test; assert t.left.id == dim and isinstance(t.ops[0], ast.Gt)
            a = rest[0].body[0]; assert isinstance(a, ast.AugAssign)
            parts.append("(if (%d <? n)%%nat then [%s] else [])" % (t.comparators[0].value, "; ".join(items(a.value))))
            rest = rest[1:]
        src = [ast.unparse(x) for x in rest]
        assert src[:2] == ["points, weights = untangle(data)", "points = np.ascontiguousarray(points.T)"], src
        vol = {"weights /= ndim.nball.volume(n, symbolic=False)": "(ndim_nball_volume n)", "weights /= math.sqrt(math.pi) ** dim": "(sqrt PI ^ n)"}[src[2]]
        r = rest[3].value; tol = ast.get_source_segment(s, r.args[6]) if len(r.args) > 6 else dtol
        out.append("(** %s:%d-%d *)" % (f, fn.lineno, fn.end_lineno))
        out.append("Definition %s (n : nat) : option (scheme * R) :=" % nm)
        out.append("  let! (%s, B) := %s_table n in" % (", ".join(names[:-1]), nm))
        out.append("  " + " ".join("let %s := Q2R %s in" % (x, x) for x in names[:-1]) + " let B := map Q2R B in")
        out.append("  let! data := opt_all (\n     " + " ++\n     ".join(parts) + ") in")
        out.append("  let! s := ms_scheme n data %s %d in\n  Some (s, %s).\n" % (vol, r.args[4].value, tol))
PAR = ["eta", "lmbda", "xi", "mu", "gamma", "A", "B", "C"]
def ex(s, n, env):
    if isinstance(n, ast.Constant): return lit(s, n)
    if isinstance(n, ast.Name): return env[n.id]
    if isinstance(n, ast.UnaryOp):
        x = ex(s, n.operand, env)
        return "(- %s)" % x
    if isinstance(n, ast.BinOp) and isinstance(n.op, ast.Div): return "(%s / %s)" % (ex(s, n.left, env), ex(s, n.right, env))
    raise ValueError(ast.dump(n))
def branches(s, st):
    """(n, assignments) of the if/elif/else chain"""
    res = []
    while True:
        res.append((st.test.comparators[0].value, st.body))
        if len(st.orelse) == 1 and isinstance(st.orelse[0], ast.If): st = st.orelse[0]; continue
        a = st.orelse[0]; assert isinstance(a, ast.Assert)
        res.append((a.test.comparators[0].value, st.orelse[1:])); return res
def table(nm, f, s, fn):
    st = fn.body[0]; rows = []
    for n, body in branches(s, st):
        env, sq = {}, False
        for a in body:
            if isinstance(a.value, ast.Call): assert ast.unparse(a.value) == "np.sqrt(2)"; env[a.targets[0].id] = "sqrt 2"; sq = True
            else: env[a.targets[0].id] = ex(s, a.value, env)
        rows.append((n, [env.get(p, "0") for p in PAR], sq))
    out.append("(** %s:%d-%d, the parameters eta, lmbda, xi, mu, gamma, A, B, C (gamma is not assigned and not used for n = 2) *)" % (f, st.lineno, st.end_lineno))
    out.append("Definition %s_table (n : nat) : option (list R) :=\n  match n with" % nm)
    for n, v, sq in rows:
        out.append("  | %d%%nat => Some %s[%s]%s" % (n, "" if sq else "(map Q2R ", fill(v, "      "), "" if sq else "%Q)"))
    out.append("  | _ => None\n  end.")
def num(n, env):
    t = ast.unparse(n)
    return {"n - 1": "(n - 1)%nat", "n - 2": "(n - 2)%nat", "1": "1%nat", "2": "2%nat"}[t]
def val(n):
    if isinstance(n, ast.UnaryOp): return n.operand.id if isinstance(n.op, ast.UAdd) else "- " + n.operand.id
    return n.id if isinstance(n, ast.Name) else {"0.0": "0"}[ast.unparse(n)]
def point_set(c):
    fnm = ast.unparse(c.func)
    if fnm == "combine": return "Some (combine [%s])" % "; ".join("([%s], %s)" % (val(a.elts[0].elts[0]), num(a.elts[1], 0)) for a in c.args)
    if fnm == "rd": return "Rrd n [%s]" % "; ".join("(%s, %s)" % (val(a.elts[0]), num(a.elts[1], 0)) for a in c.args[1].elts)
    if fnm == "np.full": assert ast.unparse(c.args[0]) == "(1, n)"; v = val(c.args[1]); return "Some [repeat %s n]" % ("(%s)" % v if " " in v else v)
    if fnm == "np.array": return "Some [%s]" % "; ".join("[%s]" % "; ".join(val(x) for x in r.elts) for r in c.args[0].elts)
    raise ValueError(fnm)
def weight(n): return n.id if isinstance(n, ast.Name) else {"2 * A": "(2 * A)"}[ast.unparse(n)]
def dlist(l): return "[%s]" % ";\n      ".join("entry %s (%s)" % (weight(e.elts[0]), point_set(e.elts[1])) for e in l.elts)
out.append('''(** An entry (w, points) of a list of data *)
Definition entry (w : R) (p : option (list point)) : option (R * list point) := let! p := p in Some (w, p).
''')
for dom, dtol in (("sn", "1.0e-14"), ("enr2", "2.7e-14")):
    f = dom + "/_stroud_1967_5.py"; s = open(ROOT + f).read()
    for fn in ast.parse(s).body:
        if not isinstance(fn, ast.FunctionDef): continue
        nm = dom + "_" + fn.name
        table(nm, f, s, fn)
        parts = []
        for st in fn.body[1:-3]:
            if isinstance(st, (ast.Assign, ast.AugAssign)): parts.append(dlist(st.value))
            else:
                assert isinstance(st, ast.If)
                parts.append("(if (n =? %d)%%nat then %s else\n      %s)" % (st.test.comparators[0].value, dlist(st.body[0].value), dlist(st.orelse[0].value)))
        src = [ast.unparse(x) for x in fn.body[-3:-1]]
        assert src == ["points, weights = untangle(data)", "points = np.ascontiguousarray(points.T)"], src
        r = fn.body[-1].value; assert len(r.args) == 6
        out.append("(** %s:%d-%d *)" % (f, fn.lineno, fn.end_lineno))
        out.append("Definition %s (n : nat) : option (scheme * R) :=" % nm)
        out.append("  let! par := %s_table n in" % nm)
        out.append("  match par with\n  | [eta; lmbda; xi; mu; gamma; A; B; C] =>\n    let! data := opt_all (\n     " + " ++\n     ".join(parts) + ") in")
        out.append("    Some (from_data n data %d, %s)\n  | _ => None\n  end.\n" % (r.args[4].value, dtol))
open("/verif/rocq/theories/StengerModel.v", "w").write("\n".join(out))
