#!/usr/bin/env python3
"""Transcribes the straight-line C++ of generated_linear/*.hpp into Gallina lets.
   Usage: gen_newton.py /repo > rocq/theories/M_NewtonGen.v   (output is committed)
          gen_newton.py /repo expr > rocq/theories/M_NewtonGenD.v"""
import re, sys
repo = sys.argv[1]
expr = len(sys.argv) > 2 and sys.argv[2] == 'expr'   # M_NewtonGenD.v: the residual functions as expressions
D = 'include/nektar_interface/particle_cell_mapping/generated_linear/'
files = [('quad', 'quadrilateral'), ('tet', 'tetrahedron'), ('prism', 'prism'), ('hex', 'hexahedron'),
         ('pyr', 'pyramid'), ('quademb', 'quadrilateralembed3d')]
out = ['''(** GENERATED by tools/gen_newton.py from /repo; do not edit by hand.
    Transcription, statement by statement, of the straight-line functions of
    include/nektar_interface/particle_cell_mapping/generated_linear/*.hpp
    (newton_step_linear_{2,3}d and newton_f_linear_{2,3}d of each element type). The binary literals 0.5, 0.25,
    0.125 are written 1/2, 1/4, 1/8; [double] is R; a division is checked: a zero divisor gives None (the code
    would produce inf or NaN). The unused phys arguments of the step functions are kept. *)
From Verif Require Import M_RealBase M_Coord.

''']
if expr:
    out = ['''(** GENERATED by tools/gen_newton.py /repo expr; do not edit by hand.
    The residual functions newton_f_linear_{2,3}d of include/nektar_interface/particle_cell_mapping/generated_linear/*.hpp, statement by
    statement, as expressions of M_DoubleExpr (temporaries are lets, so they expand where they are used); without the pyramid's, which divides. *)
From Coq Require Import ZArith.
From Verif Require Import M_DoubleExpr.
Open Scope ex_scope.
Definition c1 := ELit 1%Z 0%Z.
Definition c1_2 := ELit 1%Z (-1)%Z.
Definition c1_4 := ELit 1%Z (-2)%Z.
Definition c1_8 := ELit 1%Z (-3)%Z.
''']
def lit(e):
    if expr:
        e = re.sub(r'\b0\.125\b', 'c1_8', e); e = re.sub(r'\b0\.25\b', 'c1_4', e); e = re.sub(r'\b0\.5\b', 'c1_2', e)
        e = re.sub(r'(?<![\w.])1(\.0)?(?![\w.])', 'c1', e)
        return re.sub(r'\s+', ' ', e).strip()
    e = re.sub(r'\b0\.125\b', '(1/8)', e); e = re.sub(r'\b0\.25\b', '(1/4)', e)
    e = re.sub(r'\b0\.5\b', '(1/2)', e); e = re.sub(r'\b1\.0\b', '1', e)
    return re.sub(r'\s+', ' ', e).strip()
for short, f in files:
    raw = open(f'{repo}/{D}{f}.hpp').read()
    # blank out comments but keep line numbers
    src = re.sub(r'/\*.*?\*/', lambda m: '\n' * m.group(0).count('\n'), raw, flags=re.S)
    for m in re.finditer(r'inline void\s+(newton_(step|f)_linear_\dd)\((.*?)\)\s*\{(.*?)\n\}', src, flags=re.S):
        l0 = src[:m.start()].count('\n') + 1; l1 = src[:m.end()].count('\n') + 1
        args = [a.strip() for a in m.group(3).replace('\n', ' ').split(',')]
        ins = [a.split()[-1] for a in args if '*' not in a]
        outs = [a.split()[-1].lstrip('*') for a in args if '*' in a]
        stm = [re.sub(r'\s+', ' ', s).strip() for s in m.group(4).split(';') if s.strip()]
        asg = {}
        lets = []
        for s in stm:
            q = re.match(r'const REAL (\w+) = (.*)$', s)
            if q: lets.append((q.group(1), q.group(2))); continue
            q = re.match(r'\*(\w+) = (\w+)$', s); assert q, s
            asg[q.group(1)] = q.group(2)
        assert list(asg) == outs, (asg, outs)
        if expr and (m.group(2) == 'step' or any('/' in e for _, e in lets)): continue
        out.append(f'(** {D}{f}.hpp {l0}-{l1}: {m.group(1)} *)')
        out.append(f'Definition {short}_{m.group(2)} ({" ".join(ins)} : R) : option ({" * ".join("R" for _ in outs)}) :=')
        if expr:
            out[-1] = f'Definition {short}_{m.group(2)}_e ({" ".join(ins)} : ex) : ({" * ".join("ex" for _ in outs)})%type :='
            for n, e in lets: out.append(f'  let {n} := {lit(e)} in')
            out.append('  (' + ', '.join(asg[o] for o in outs) + ').'); out.append(''); continue
        closes = 0
        for n, e in lets:
            if '/' in e:
                assert e.count('/') == 1 and not re.search(r'[-+]', e.split('/')[0]), e
                a, b = e.split('/')
                out.append(f'  match rdiv ({lit(a)}) ({lit(b)}) with None => None | Some {n} =>'); closes += 1
            else:
                out.append(f'  let {n} := {lit(e)} in')
        out.append('  Some (' + ', '.join(asg[o] for o in outs) + ')' + ' end' * closes + '.')
        out.append('')
print('\n'.join(out))
