#!/usr/bin/env python3
"""Generates rocq/theories/PathTests.v: the project's own unit tests for path processing, replayed on the model.
They are sanity checks of the model, not proofs of a property."""
import re
from fractions import Fraction
def q(s):
    f = Fraction(s)
    return f"(zq {f.numerator})" if f.denominator == 1 and f >= 0 else (f"(zq ({f.numerator}))" if f.denominator == 1 else f"(fq ({f.numerator}) {f.denominator})")
N = {'M':('MoveTo',2),'L':('LineTo',2),'H':('HLine',1),'V':('VLine',1),'C':('CurveTo',6),'S':('SmoothCurve',4),'Q':('Quad',4),'T':('SmoothQuad',2),'Z':('ClosePath',0)}
def parse(s, absonly):
    out = []
    toks = re.findall(r'[A-Za-z]|-?[\d.]+', s)
    i = 0
    while i < len(toks):
        c = toks[i]; i += 1
        n, k = N[c.upper()]
        first = True
        while first or (k and i < len(toks) and not toks[i].isalpha()):
            a = toks[i:i+k]; i += k
            nn = 'LineTo' if (c.upper() == 'M' and not first) else n
            d = ' '.join([nn] + [q(x) for x in a])
            out.append(d if absonly else f"Seg {'true' if c.isupper() else 'false'} ({d})")
            first = False
    return '[' + '; '.join(out) + ']'
src = '/repo/src/task/paths/'
L = ["(** The unit tests of src/task/paths/*.rs, replayed on the model (generated by tools/paths.py). Sanity",
     "    checks that the model behaves like the code on these inputs; no property rests on them. *)",
     "From Coq Require Import List Bool ZArith.",
     "From Verif Require Import Num Value Paths.",
     "Import ListNotations.",
     "Definition same (o : option (list seg)) (l : list seg) : bool := match o with Some m => list_eqb seg_eqb m l | None => false end.", ""]
t = open(src + 'rm_unused.rs').read()
for m in re.finditer(r'test!\((\w+),\s*"([^"]*)",\s*"([^"]*)"\)', t):
    L.append(f"(** src/task/paths/rm_unused.rs, test {m[1]} *)")
    L.append(f"Example {m[1]} : same (remove_unused_loop 30 (conv_to_absolute {parse(m[2], False)})) {parse(m[3], True)} = true.\nProof. vm_compute. reflexivity. Qed.")
t = open(src + 'conv_segments.rs').read()
for m in re.finditer(r'test!\((\w+),\s*"([^"]*)",\s*"([^"]*)"\)', t):
    L.append(f"(** src/task/paths/conv_segments.rs, test {m[1]} *)")
    L.append(f"Example {m[1]} : same (convert_segments_loop 30 (conv_to_absolute {parse(m[2], False)})) {parse(m[3], True)} = true.\nProof. vm_compute. reflexivity. Qed.")
a = "M 10 20 H 30 V 40 Z M 10 20 H 30 V 40 Z"; b = "M 10 20 L 30 20 L 30 40 Z M 10 20 L 30 20 L 30 40 Z"
L.append("(** src/task/paths/conv_segments.rs, test hv_to_l_1 *)")
L.append(f"Example hv_to_l_1 : same (convert_hv_to_l {parse(a, True)}) {parse(b, True)} && same (convert_l_to_hv {parse(b, True)}) {parse(a, True)} = true.\nProof. vm_compute. reflexivity. Qed.")
L.append("(** src/task/paths/apply_transform.rs, test apply_1 *)")
L.append(f"Example apply_1 : same (Some (apply_transform (Tr q1 q0 q0 q1 (zq 10) (zq 20)) q1 {parse('M 10 20 L 30 40', True)})) {parse('M 20 40 L 40 60', True)} = true.\nProof. vm_compute. reflexivity. Qed.")
open('/verif/rocq/theories/PathTests.v', 'w').write('\n'.join(L) + '\n')
