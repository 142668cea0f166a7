"""Writes rocq/theories/GkModel.v from /repo/quadpy/e1r2/_genz_keister.py."""
import re
src = open("/repo/quadpy/e1r2/_genz_keister.py").read().split("\n")
lit = re.compile(r"^\s*(-?\d+\.\d+(?:e[-+]?\d+)?),\s*$")
pts, wts, lines = {}, {}, {}
cur = None
for no, l in enumerate(src, 1):
    m = re.match(r"_points_(\d) = _points_(\d) \+ \[$", l)
    if m:
        cur = ("p", int(m.group(1)), int(m.group(2)), no)
        pts[cur[1]] = []
        continue
    m = re.match(r"\s+(?:elif|assert) n == (\d)", l)
    if m:
        cur = ("w", int(m.group(1)), None, no)
        wts[cur[1]] = []
        continue
    m = lit.match(l)
    if m and cur:
        (pts if cur[0] == "p" else wts)[cur[1]].append(m.group(1))
        lines[cur[:2]] = (cur[3], no + 1)
deg = {}
n = None
for l in src:
    m = re.match(r"\s+(?:if|elif|assert) n == (\d)", l)
    if m:
        n = int(m.group(1))
    m = re.match(r"\s+degree = (\d+)", l)
    if m:
        deg[n] = int(m.group(1))
def fmt(ls):
    out, row = [], ""
    for x in ls:
        t = ("(%s)" % x if x[0] == "-" else x) + "; "
        if len(row) + len(t) > 110:
            out.append(row.rstrip())
            row = ""
        row += t
    out.append(row.rstrip("; "))
    return "\n    ".join(out)
o = []
o.append('''(** Model of quadpy/e1r2/_genz_keister.py, written by tools/gen_gk.py from the source text.  A decimal literal stands for the exact
    decimal number and numpy arithmetic is real arithmetic; name and source of the scheme are left out. *)
From Coq Require Import Reals List Arith ZArith QArith Qreals.
From Verif Require Import Spec Spec1 CombModel PyBase C1Model PattersonModel.
Import ListNotations.
Open Scope R_scope.
''')
o.append("(** The literals appended to the points of an earlier rule, e1r2/_genz_keister.py:%d-%d *)" % (lines[("p", 2)][0], lines[("p", 7)][1]))
o.append("Definition gk_new_points (k : nat) : list Q := (\n  match k with")
for k in sorted(pts):
    o.append("  | %d%%nat => [\n    %s]" % (k, fmt(pts[k])))
o.append("  | _ => []\n  end)%Q.")
o.append('''(** _points_0, ..., _points_7, e1r2/_genz_keister.py:22-98 *)
Definition gk_points (k : nat) : list R :=
  let points_0 := [0] in
  let points_1 := points_0 ++ [sqrt (3 / 2)] in
  let points_2 := points_1 ++ map Q2R (gk_new_points 2) in
  let points_3 := points_2 ++ map Q2R (gk_new_points 3) in
  match k with
  | 0%nat => points_0
  | 1%nat => points_1
  | 2%nat => points_2
  | 3%nat => points_3
  | _ => points_3 ++ map Q2R (gk_new_points k)
  end.''')
o.append("(** The weights given by literals, e1r2/_genz_keister.py:%d-%d *)" % (lines[("w", 2)][0], lines[("w", 7)][1]))
o.append("Definition gk_table (n : nat) : list Q := (\n  match n with")
for k in sorted(wts):
    if wts[k]:
        o.append("  | %d%%nat => [\n    %s]" % (k, fmt(wts[k])))
o.append("  | _ => []\n  end)%Q.")
a = next(i for i, l in enumerate(src, 1) if l.startswith("def genz_keister"))
b = max(i for i, l in enumerate(src, 1) if l.strip())
o.append('''(** e1r2/_genz_keister.py:%d-%d; n is an integer, the assertions reject n < 0 and n > 7 *)
Definition genz_keister (n : Z) : option c1_scheme :=
  guard (0 <=? n)%%Z (
    let! dpw := match n with''' % (a, b))
o.append("      | 0%%Z => Some (%d%%Z, gk_points 0, [sqrt PI])" % deg[0])
o.append("      | 1%%Z => Some (%d%%Z, gk_points 1, [2 / 3 * sqrt PI; 1 / 6 * sqrt PI])" % deg[1])
for k in range(2, 8):
    o.append("      | %d%%Z => Some (%d%%Z, gk_points %d, map Q2R (gk_table %d))" % (k, deg[k], k, k))
o.append('''      | _ => None
      end in
    let '(degree, points, w) := dpw in
    let weights := rev (tl w) ++ [nth 0 w 0] ++ tl w in
    let p := np_sort points in
    let points := map Ropp (rev (tl p)) ++ [nth 0 p 0] ++ tl p in
    Some (c1_scheme_of degree weights points)).''')
open("/verif/rocq/theories/GkModel.v", "w").write("\n".join(o) + "\n")
