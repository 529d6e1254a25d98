# Transcribes the tables of /repo/e3nn_jax/_src/J.py into theories/JTables.v: an entry n * sqrt(s) / d is (n, d, s).
import ast
src = open('/repo/e3nn_jax/_src/J.py').read()
tree = ast.parse(src)
from fractions import Fraction as F
def ev(e):  # -> (fraction, radicand)
    if isinstance(e, ast.Constant): return (F(e.value), 1)
    if isinstance(e, ast.UnaryOp): a, s = ev(e.operand); return (-a, s)
    if isinstance(e, ast.Call): assert e.func.id == 'sqrt'; a, s = ev(e.args[0]); assert s == 1 and a.denominator == 1; return (F(1), a.numerator)
    a, s = ev(e.left); b, t = ev(e.right)
    if isinstance(e.op, ast.Mult): assert s == 1 or t == 1; return (a * b, s * t)
    assert isinstance(e.op, ast.Div) and t == 1; return (a / b, s)
out = ['''(* Transcription of e3nn_jax/_src/J.py:6-2186 (generated by tools/mkjtables.py): the entry n * sqrt(s) / d is written (n, d, s). *)
From Coq Require Import ZArith List.
Import ListNotations.
Open Scope Z_scope.
Local Notation o := (0, 1, 1) (only parsing).''']
names = []
for st in tree.body:
    if isinstance(st, ast.Assign) and isinstance(st.targets[0], ast.Name) and st.targets[0].id.startswith('J'):
        rows = st.value.args[0].elts
        name = st.targets[0].id; names.append(name)
        txt = []
        for r in rows:
            cells = []
            for e in r.elts:
                a, s = ev(e)
                cells.append('o' if a == 0 else f'({a.numerator}, {a.denominator}, {s})')
            txt.append('   [' + '; '.join(cells) + ']')
        out.append(f'Definition {name} : list (list (Z * Z * Z)) := [\n' + ';\n'.join(txt) + '].')
assert names == [f'J{i}' for i in range(12)], names
out.append('(* J.py:2186 *)\nDefinition Jd_tables : list (list (list (Z * Z * Z))) := [' + '; '.join(names) + '].')
open('/verif/rocq/theories/JTables.v', 'w').write('\n'.join(out) + '\n')
