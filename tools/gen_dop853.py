"""Transcribe the literals of /repo/nbkode/runge_kutta/dop853_coefficients.py
(read as text) into exact rationals, writing rocq/theories/MDop853.v."""
import re
from fractions import Fraction

src = open("/repo/nbkode/runge_kutta/dop853_coefficients.py").read().splitlines()


def q(txt):
    f = Fraction(txt.strip())
    return f"({f.numerator} # {f.denominator})"


N, NE, P = 12, 16, 7
# C: lines 7-26
body = "\n".join(src)
cblock = body[body.index("C = np.ascontiguousarray(") : body.index("A = np.zeros")]
C = [x.strip() for x in cblock[cblock.index("[") + 1 : cblock.index("]")].split(",") if x.strip()]
assert len(C) == NE
A = [["0"] * NE for _ in range(NE)]
D = [["0"] * NE for _ in range(P - 3)]
E5 = ["0"] * (N + 1)
E3s = []
for line in src:
    m = re.match(r"A\[(\d+), (\d+)\] = (\S+)$", line)
    if m:
        A[int(m[1])][int(m[2])] = m[3]
    m = re.match(r"D\[(\d+), (\d+)\] = (\S+)$", line)
    if m:
        D[int(m[1])][int(m[2])] = m[3]
    m = re.match(r"E5\[(\d+)\] = (\S+)$", line)
    if m:
        E5[int(m[1])] = m[2]
    m = re.match(r"E3\[(\d+)\] -= (\S+)$", line)
    if m:
        E3s.append((int(m[1]), m[2]))


def row(r):
    return "[" + "; ".join(q(x) if Fraction(x) != 0 else "0" for x in r) + "]"


def mat(m):
    return "[" + ";\n   ".join(row(r) for r in m) + "]"


out = f"""(** Coefficients of DOP853, transcribed by tools/gen_dop853.py from
    nbkode/runge_kutta/dop853_coefficients.py (each decimal literal as the exact
    rational it denotes; the float is its correct rounding). *)
From Coq Require Import List QArith.
Import ListNotations.
Open Scope Q_scope.

(** dop853_coefficients.py:3 *)
Definition dop_n_stages : nat := 12.
(** dop853_coefficients.py:7-26 *)
Definition dop_C : list Q :=
  {row(C)}.
(** dop853_coefficients.py:28-124 *)
Definition dop_A : list (list Q) :=
  {mat(A)}.
(** dop853_coefficients.py:131-133: what is subtracted from B, by index *)
Definition dop_E3_sub : list (nat * Q) :=
  [{"; ".join(f"({i}%nat, {q(v)})" for i, v in E3s)}].
(** dop853_coefficients.py:135-143 *)
Definition dop_E5 : list Q :=
  {row(E5)}.
(** dop853_coefficients.py:146-197 *)
Definition dop_D : list (list Q) :=
  {mat(D)}.
"""
open("/verif/rocq/theories/MDop853.v", "w").write(out)
