#!/usr/bin/env python3
"""Writes rocq/theories/TestData.v: the meshes of some cases in /repo/testData (attributes and
corner vertices; coordinates and areas are left out) and their input files, as terms of the model."""
import json, os
ROOT = os.path.dirname(os.path.dirname(os.path.abspath(__file__)))
CORNERS = {1: 2, 8: 2, 26: 2, 2: 3, 9: 3, 21: 3}
out = ["(** Generated by tools/mkdata.py from /repo/testData: input files and meshes (gmsh 2.2) of the",
       "    project's own test cases. Coordinates and areas are left out. For the large meshes only the",
       "    boundary and one element of each material are kept ([_border]). *)",
       "From Coq Require Import QArith.", "From Verif Require Import Prelude Json Materials Graph ModelM Parser.", "Open Scope list_scope.", "",
       "Definition piece (a : Z) (v : list Z) : element Q := {| e_attr := a; e_verts := v; e_vol := 0%Q |}.",
       "Definition flat_mesh (elems bdr : list (element Q)) : mesh Q := {| m_elems := elems; m_bdr := bdr; m_coord := fun _ => (0%Q, 0%Q) |}.", ""]
def js(v):
    if isinstance(v, bool): return "JBool %s" % str(v).lower()
    if isinstance(v, int): return "JInt %d" % v
    if isinstance(v, float):
        from fractions import Fraction
        f = Fraction(str(v)); return "JFloat (%d # %d)%%Q" % (f.numerator, f.denominator)
    if isinstance(v, str): return 'JStr "%s"' % v
    if isinstance(v, dict): return "JObj [" + "; ".join('("%s"%%string, %s)' % (k, js(x)) for k, x in sorted(v.items())) + "]"
    raise Exception(v)
def case(name, full):
    L = open(f'/repo/testData/{name}/{name}.msh').read().split('\n')
    i = L.index('$Elements'); n = int(L[i+1])
    el, bd = [], []
    for l in L[i+2:i+2+n]:
        w = [int(x) for x in l.split()]
        c = CORNERS[w[1]]; v = w[3+w[2]:][:c]
        (bd if c == 2 else el).append((w[3], v))
    if not full:
        seen, e2 = set(), []
        for a, v in el:
            if a not in seen: seen.add(a); e2.append((a, v))
        el = e2
    used = sorted({x for _, v in el + bd for x in v}); num = {x: k for k, x in enumerate(used)}
    def lst(l):
        return "[" + ";\n   ".join("; ".join("piece %d [%s]" % (a, "; ".join(str(num[x]) for x in v)) for a, v in l[k:k+6]) for k in range(0, len(l), 6)) + "]%Z"
    out.append(f"(** testData/{name} *)")
    out.append(f"Definition {name}{'' if full else '_border'} : mesh Q := flat_mesh\n  {lst(el)}\n  {lst(bd)}.")
    out.append(f"Definition {name}_json : json Q := {js(json.load(open(f'/repo/testData/{name}/{name}.pulmtln.in.json')))}.")
    out.append("")
for c in ['empty_coax', 'partially_filled_coax', 'nested_coax']: case(c, True)
for c in ['agrawal1981', 'three_wires_ribbon']: case(c, False)
open(os.path.join(ROOT, 'rocq/theories/TestData.v'), 'w').write("\n".join(out))
