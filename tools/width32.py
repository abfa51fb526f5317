#!/usr/bin/env python3
"""The model and the proofs with a 32-bit usize, in a scratch copy.

usage: width32.py DIR   (then: cd DIR && make -k -j4)

Replaces the two constants of Base.v and the literals that stand for the width
of a machine word; removes the one theorem that needs a 64-bit word
(C56_huge_bound_differs: a bound above u32::MAX, which a 32-bit usize cannot
express).  Everything else is left as it is."""
import re, shutil, sys, os
src = os.path.join(os.path.dirname(os.path.abspath(__file__)), '..', 'rocq')
dst = sys.argv[1]
shutil.copytree(src, dst)
T = os.path.join(dst, 'theories')
def edit(f, *subs):
    p = os.path.join(T, f); s = open(p).read()
    for a, b in subs:
        t = re.sub(a, b, s, flags=re.S)
        assert t != s, (f, a)
        s = t
    open(p, 'w').write(s)
edit('Base.v', (r'usize_mod : Z := 2 \^ 64', 'usize_mod : Z := 2 ^ 32'), (r'isize_max : Z := 2 \^ 63 - 1', 'isize_max : Z := 2 ^ 31 - 1'))
for f in ('SpecWrap.v', 'ProofWrap.v', 'PropertiesWrap.v'):
    p = os.path.join(T, f); s = open(p).read()
    s = s.replace('2 ^ 64', '2 ^ 32').replace('2 ^ 63', '2 ^ 31')
    open(p, 'w').write(s)
edit('ModelHash.v', (r'2 \^ 64', '2 ^ 32'), (r'Z.log2 n / 64', 'Z.log2 n / 32'), (r'feed_int U64 n', 'feed_int U32 n'))
edit('SpecHash.v', (r'Z\.abs z\) / 64', 'Z.abs z) / 32'))
edit('ProofHash.v', (r'\b64\b', '32'), (r'U64', 'U32'))
for f in ('ProofSize.v', 'PropertiesSize.v', 'ProofWork.v', 'PropertiesWork.v'):
    edit(f, (r'2 \^ 60', '2 ^ 28'))
edit('PropertiesArrayVec.v', (r'Theorem C56_huge_bound_differs.*?Print Assumptions C56_huge_bound_differs\.\n', ''))
# two examples whose text depends on the width
edit('PropertiesHash.v', (r'Example C73_sample :.*?Qed\.', ''))
edit('PropertiesLimit.v', (r'2 \^ 40', '2 ^ 28'), (r'2 \^ 34', '2 ^ 26'), (r'2 \^ 62', '2 ^ 30'))
