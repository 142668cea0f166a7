"""Writes rocq/theories/DecModel.v: the schemes of /repo whose data are decimal literals, statement by statement."""
import ast, sys
R = '/repo/quadpy/'
class Gen:
    def __init__(self, f):
        self.f = f; self.s = open(R + f).read()
        self.F = {n.name: n for n in ast.parse(self.s).body if isinstance(n, ast.FunctionDef)}
    def lit(self, n): return ast.get_source_segment(self.s, n)
    def start(self, name): self.lines = []; self.n = 0; self.name = name; self.used = set()
    def fresh(self):
        self.n += 1; return 'q%d' % self.n
    def ex(self, n, env):
        """python expression -> Coq text (atomic); square roots are bound first"""
        if isinstance(n, ast.Constant):
            t = self.lit(n)
            return t
        if isinstance(n, ast.UnaryOp):
            a = self.ex(n.operand, env)
            return '(- %s)' % a if isinstance(n.op, ast.USub) else a
        if isinstance(n, ast.BinOp):
            a = self.ex(n.left, env); b = self.ex(n.right, env)
            o = {ast.Add: '+', ast.Sub: '-', ast.Mult: '*', ast.Div: '/', ast.Pow: '^'}[type(n.op)]
            return '(%s %s %s)' % (a, o, b)
        if isinstance(n, ast.Name):
            return env[n.id]
        if isinstance(n, ast.Attribute) and n.attr == 'pi': return 'PI'
        if isinstance(n, ast.Call):
            f = n.func.attr if isinstance(n.func, ast.Attribute) else n.func.id
            if f == 'sqrt':
                a = self.ex(n.args[0], env); v = self.fresh()
                self.lines.append('  let! %s := rsqrt %s in' % (v, a)); return v
            if f == 'frac': return '(%s / %s)' % (self.ex(n.args[0], env), self.ex(n.args[1], env))
        raise Exception(ast.dump(n))
    def bind(self, name, t, env):
        v = name + '_' if name in ('d', 'at', 'in') else name
        k = v
        while k in self.used: k += "'"
        self.used.add(k)
        self.lines.append('  let %s := %s in' % (k, t)); env[name] = k
    def assign(self, st, env):
        t, v = st.targets[0], st.value
        if isinstance(t, ast.Name):
            e = self.ex(v, env)
            if e.startswith('q') and e in ['q%d' % i for i in range(99)]: env[t.id] = e   # a = sqrt(...)
            else: self.bind(t.id, e, env)
        elif isinstance(v, ast.ListComp):
            g = v.generators[0]
            for nm, iv in zip(t.elts, g.iter.elts):
                e = self.ex(v.elt, {**env, g.target.id: self.ex(iv, env)})
                if e.startswith('q'): env[nm.id] = e
                else: self.bind(nm.id, e, env)
        else: raise Exception(ast.dump(st))
    def lst(self, n, env):
        return '[' + '; '.join(self.ex(x, env) for x in n.elts) + ']'
    def dic(self, v, env, div):
        out = []
        for k, rows in zip(v.keys, v.values):
            rs = rows.elts
            if not isinstance(rs[0], (ast.List, ast.Tuple)): ws = self.lst(rows, env); cs = []
            else: ws = self.lst(rs[0], env); cs = [self.lst(r, env) for r in rs[1:]]
            if div: ws = '(map (fun v => v / %s) %s)' % (div, ws)
            out.append('("%s", (%s, [%s]))' % (k.value, ws, '; '.join(cs)))
        return '[' + ';\n      '.join(out) + ']'
    def cite(self, fn): return '(** %s:%d-%d *)' % (self.f, fn.lineno, fn.end_lineno)
    def emit(self, cname, fn, body):
        return self.cite(fn) + '\nDefinition %s : option (scheme * R) :=\n' % cname + ''.join(l + '\n' for l in self.lines) + body + '.\n'
    def tol(self, a, i):
        return self.lit(a[i]) if len(a) > i else '1.0e-14'
    def deg(self, n, consts): return str(n.value) if isinstance(n, ast.Constant) else consts[n.id]
    def sym(self, name, cname, ctor):
        """schemes given by a dictionary of orbits"""
        fn = self.F[name]; self.start(name); env = {}; d = None; div = None; consts = {}
        for st in fn.body:
            if isinstance(st, ast.For): div = '4'; assert 'value[0] = [val / 4 for val in value[0]]' in self.lit(st)
        for st in fn.body:
            if isinstance(st, ast.Assign):
                if isinstance(st.value, ast.Dict): d = self.dic(st.value, env, div)
                elif isinstance(st.targets[0], ast.Name) and st.targets[0].id == 'degree': consts['degree'] = str(st.value.value)
                else: self.assign(st, env)
            elif isinstance(st, ast.Return): a = st.value.args
        return self.emit(cname, fn, '  with_tol (%s\n     %s %s) %s' % (ctor, d, self.deg(a[2], consts), self.tol(a, 4)))
    def pts(self, n, env, pre):
        if isinstance(n, ast.Call):
            args = [self.ex(x, env) for x in n.args]
            return ' '.join(['%s%s' % (pre, n.func.id.strip('_'))] + args)
        return '[' + '; '.join(self.lst(r, env) for r in n.elts) + ']'
    def data(self, name, cname, kind, pre):
        """schemes given by a list for untangle"""
        fn = self.F[name]; self.start(name); env = {}
        for st in fn.body:
            if isinstance(st, ast.Assign):
                if isinstance(st.targets[0], ast.Name) and st.targets[0].id == 'data':
                    out = []
                    for tup in st.value.elts:
                        w = self.ex(tup.elts[0], env); out.append('(%s, %s)' % (w, self.pts(tup.elts[1], env, pre)))
                    d = '[' + ';\n      '.join(out) + ']'
                elif isinstance(st.targets[0], ast.Tuple) and getattr(st.value, 'func', None) is not None and st.value.func.id == 'untangle': pass
                elif isinstance(st.targets[0], ast.Name) and st.targets[0].id in ('weights', 'points', 'd'): pass
                else: self.assign(st, env)
            elif isinstance(st, ast.Return): a = st.value.args
        if kind == 's2': return self.emit(cname, fn, '  with_tol (s2_wissmann %s %s) %s' % (d, a[2].value, self.tol(a, 4)))
        return self.emit(cname, fn, '  with_tol (%s %s %s) %s' % (kind, d, a[3].value, self.tol(a, 5)))
    def franke(self, name, cname):
        fn = self.F[name]; self.start(name); env = {}; rows = None
        for st in fn.body:
            if isinstance(st, ast.Assign):
                i = st.targets[0].id
                if i == 'points' and rows is None: rows = [self.lst(r, env) for r in st.value.args[0].elts]
                elif i == 'weights': w = self.lst(st.value.right.args[0], env)
                elif i != 'points': self.assign(st, env)
            elif isinstance(st, ast.Return): a = st.value.args
        self.lines += ['  let points0 := %s in' % rows[0], '  let points1 := %s in' % rows[1], '  let weights := map (fun w => 2 * w) %s in' % w]
        return self.emit(cname, fn, '  with_tol (t2_scheme [("plain", (weights, [points0; points1; map (fun xy => 1 - fst xy - snd xy) (List.combine points0 points1)]))] %s) %s' % (a[2].value, self.tol(a, 4)))
HEAD = '''(** Model of the schemes of quadpy whose data are decimal literals, written by tools/gen_dec.py from the source text, one
    definition per Python function.  A literal stands for the exact decimal number, not for the nearest double; names and
    sources are omitted.  The result is the scheme together with its [test_tolerance] (helpers/_class.py:13), 1e-14 where the
    code gives none. *)
From Coq Require Import Reals List Arith ZArith String.
From Verif Require Import Spec CombModel PyBase SymmModel T2Model T3Model C2Model C3Model S2Model FelippaModel.
Import ListNotations.
Local Notation length := List.length.
Open Scope R_scope.
Open Scope string_scope.

(** The tol argument of the scheme constructors (helpers/_class.py:7-13). *)
Definition with_tol (o : option scheme) (tol : R) : option (scheme * R) := let! s := o in Some (s, tol).
(** s2/_wissmann_becker.py: untangle, weights /= pi, {"plain": [weights, points[0], points[1]]} (lines 30-33, 47-50, 67-70). *)
Definition s2_wissmann (data : list (R * list point)) (degree : nat) : option scheme :=
  let '(points, weights) := untangle data in
  s2_scheme [("plain", (map (fun w => w / PI) weights, [map (fun p => nth 0 p 0) points; map (fun p => nth 1 p 0) points]))] degree.
(** s2/_wissmann_becker.py:74-75 *)
Definition wb_z (a : R) : list point := [[0; a]].
(** s2/_wissmann_becker.py:78-79 *)
Definition wb_m (a b : R) : list point := [[a; b]; [- a; b]].
'''
W3 = '''
(** w3/_kubatko_yeager_maggi.py: untangle, weights / 4, points[:, :2] += 1, points[:, :2] /= 2 (e.g. lines 20-24). *)
Definition kym (data : list (R * list point)) (degree : nat) : option scheme :=
  let '(points, weights) := untangle data in
  Some (mk_scheme 3 (mk_rule (map (fun p => [(nth 0 p 0 + 1) / 2; (nth 1 p 0 + 1) / 2; nth 2 p 0]) points, map (fun w => w / 4) weights)) degree).
'''
def main():
    o = [HEAD]
    def sec(t): o.append('\n(** *** %s *)' % t)
    sec('t2'); g = Gen('t2/_lyness_jespersen.py')
    for i in [5] + list(range(12, 22)): o.append(g.sym('lyness_jespersen_%02d' % i, 't2_lyness_jespersen_%02d' % i, 't2_scheme'))
    g = Gen('t2/_strang_fix_cowper/__init__.py')
    for x in ('06', '07'): o.append(g.sym('strang_fix_cowper_' + x, 't2_strang_fix_cowper_' + x, 't2_scheme'))
    g = Gen('t2/_laursen_gellert/__init__.py')
    for x in ('06', '07'): o.append(g.sym('laursen_gellert_' + x, 't2_laursen_gellert_' + x, 't2_scheme'))
    g = Gen('t2/_franke.py')
    for x in ('09', '10'): o.append(g.franke('franke_' + x, 't2_franke_' + x))
    sec('t3'); g = Gen('t3/_keast/__init__.py')
    for x in ('3', '5'): o.append(g.sym('keast_' + x, 't3_keast_' + x, 't3_scheme'))
    sec('c2'); g = Gen('c2/_hammer_stroud.py'); o.append(g.sym('hammer_stroud_3_2', 'c2_hammer_stroud_3_2', 'c2_scheme'))
    g = Gen('c2/_franke.py')
    for x in ('2a', '2b', '3a', '3b', '3c', '8'): o.append(g.sym('franke_' + x, 'c2_franke_' + x, 'c2_scheme'))
    sec('c3'); g = Gen('c3/_hammer_stroud.py'); o.append(g.sym('hammer_stroud_6_3', 'c3_hammer_stroud_6_3', 'c3_scheme'))
    g = Gen('c3/_witherden_vincent/__init__.py')
    for x in ('07', '09', '11'): o.append(g.sym('witherden_vincent_' + x, 'c3_witherden_vincent_' + x, 'c3_scheme'))
    sec('s2'); g = Gen('s2/_hammer_stroud.py')
    for x in ('19', '21'): o.append(g.sym('hammer_stroud_' + x, 's2_hammer_stroud_' + x, 's2_scheme'))
    g = Gen('s2/_wissmann_becker.py')
    for x in ('6_1', '6_2', '8_1'): o.append(g.data('wissmann_becker_' + x, 's2_wissmann_becker_' + x, 's2', 'wb_'))
    sec('w3'); g = Gen('w3/_felippa.py')
    o.append('''(** w3/_felippa.py:94-96 *)
Definition felippa_s3_z (z : R) : list point := [[1/3; 1/3; z]; [1/3; 1/3; - z]].
(** w3/_felippa.py:99-101 *)
Definition felippa_s21 (a : R) : list point := let b := 1 - 2 * a in [[a; b; 0]; [b; a; 0]; [a; a; 0]].
(** w3/_felippa.py:109-124 *)
Definition felippa_s111_z (a b z : R) : list point :=
  let c := 1 - a - b in
  [[b; c; z]; [a; b; z]; [c; a; z]; [c; b; z]; [a; c; z]; [b; a; z];
   [b; c; - z]; [a; b; - z]; [c; a; - z]; [c; b; - z]; [a; c; - z]; [b; a; - z]].
Definition felippa_s3 := s3.
Definition felippa_s21_z := s21_z.
Definition w3_data (data : list (R * list point)) (degree : nat) : option scheme := Some (mk3 data degree).
''')
    for x in '456': o.append(g.data('felippa_' + x, 'w3_felippa_' + x, 'w3_data', 'felippa_'))
    g = Gen('w3/_kubatko_yeager_maggi.py'); o.append(W3)
    L = {n: (f.lineno, f.end_lineno) for n, f in g.F.items()}
    def c(n): return '(** %s:%d-%d *)' % ((g.f,) + L[n])
    o.append(c('_zeta_pm') + '\nDefinition kym_zeta_pm (xi eta zeta : R) : list point := [[xi; eta; zeta]; [xi; eta; - zeta]].')
    o.append(c('_abz') + '\nDefinition kym_abz (a b z : R) : list point := [[a; b; z]; [b; a; z]].')
    o.append(c('_abz_pm') + '\nDefinition kym_abz_pm (a b z : R) : list point := [[a; b; z]; [a; b; - z]; [b; a; z]; [b; a; - z]].')
    o.append(c('_az') + '\nDefinition kym_az (a z : R) : list point := [[a; a; z]; [a; a; - z]].')
    o.append(c('_s3') + '\nDefinition kym_s3 : list point := [[- (1/3); - (1/3); 0]].')
    o.append(c('_s3_z') + '\nDefinition kym_s3_z (z : R) : list point := [[- (1/3); - (1/3); z]; [- (1/3); - (1/3); - z]].')
    o.append(c('_s21') + '\nDefinition kym_s21 (a : R) : list point := let b := - (1 + 2 * a) in [[a; b; 0]; [b; a; 0]; [a; a; 0]].')
    o.append(c('_s21_z') + '\nDefinition kym_s21_z (a z : R) : list point :=\n  let b := - (1 + 2 * a) in [[a; b; z]; [b; a; z]; [a; a; z]; [a; b; - z]; [b; a; - z]; [a; a; - z]].')
    o.append(c('_s30') + '\nDefinition kym_s30 (a b c : R) : list point := [[a; b; 0]; [b; a; 0]; [a; c; 0]; [c; a; 0]; [b; c; 0]; [c; b; 0]].')
    o.append(c('_s111_z') + '''\nDefinition kym_s111_z (a b z : R) : list point :=
  let c := - (1 + a + b) in
  [[b; c; z]; [a; b; z]; [c; a; z]; [c; b; z]; [a; c; z]; [b; a; z];
   [b; c; - z]; [a; b; - z]; [c; a; - z]; [c; b; - z]; [a; c; - z]; [b; a; - z]].''')
    for n in g.F:
        if not n.startswith('_'): o.append(g.data(n, 'w3_' + n, 'kym', 'kym_'))
    open('/verif/rocq/theories/DecModel.v', 'w').write('\n'.join(o))
main()
