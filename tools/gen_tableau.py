#!/usr/bin/env python3
"""Transcribes the literals of generate_butcher_tableu (rk_utils.py) into exact rationals."""
import re
from fractions import Fraction
SRC = "/repo/nosnoc/rk_utils.py"
lines = open(SRC).read().split("\n")
start = next(i for i, l in enumerate(lines) if l.startswith("def generate_butcher_tableu("))
end = next(i for i, l in enumerate(lines) if l.startswith("def generate_butcher_tableu_integral"))
body = lines[start:end]
scheme, ns = None, None
tabs = {}
i = 0
num = re.compile(r"-?\d+\.?\d*(?:e-?\d+)?")
def q(s):
    f = Fraction(s)
    # keep the decimal scaling 10^k of the literal
    if "." in s:
        k = len(s.split(".")[1].rstrip("0"))
    else:
        k = 0
    d = 10 ** k
    n = f * d
    assert n.denominator == 1
    return "(%d # %d)" % (n.numerator, d)
while i < len(body):
    l = body[i]
    if "IrkSchemes.RADAU_IIA" in l: scheme = "radau"
    if "IrkSchemes.GAUSS_LEGENDRE" in l: scheme = "gauss"
    m = re.search(r"(?:el)?if n_s == (\d+):", l)
    if m:
        ns = int(m.group(1)); tabs[(scheme, ns)] = dict(first=start + i + 1)
    m = re.match(r"\s*([Abc]) = np\.array\((.*)$", l)
    if m:
        name, txt = m.group(1), m.group(2)
        depth = 1
        def bal(t): return t.count("(") - t.count(")")
        d = 1 + bal(txt)
        while d > 0:
            i += 1
            txt += " " + body[i]
            d += bal(body[i])
        txt = txt.rsplit(")", 1)[0]
        assert re.fullmatch(r"[\[\]\s,\-\d.]*", txt), txt
        if name == "A":
            rows = re.findall(r"\[([^\[\]]*)\]", txt)
            tabs[(scheme, ns)]["A"] = [num.findall(r) for r in rows]
        else:
            tabs[(scheme, ns)][name] = num.findall(txt)
        tabs[(scheme, ns)]["last"] = start + i + 1
    i += 1
out = []
out.append("(* TableauData.v -- generated by tools/gen_tableau.py from nosnoc/rk_utils.py:49-1052.\n"
           "   The decimal literals of generate_butcher_tableu as exact rationals (the float\n"
           "   rounding of the literals is not modelled). *)")
out.append("From Verif Require Import Base.\n#[local] Open Scope Q_scope.\n")
for (s, n), t in tabs.items():
    assert len(t["A"]) == n and all(len(r) == n for r in t["A"]) and len(t["b"]) == n and len(t["c"]) == n, (s, n)
    out.append("(* rk_utils.py:%d-%d *)" % (t["first"], t["last"]))
    out.append("Definition %s_A_%d : list (list Q) :=\n  [ %s ]." % (s, n, "\n  ; ".join("[" + "; ".join(q(x) for x in r) + "]" for r in t["A"])))
    for v in "bc":
        out.append("Definition %s_%s_%d : list Q := [%s]." % (s, v, n, "; ".join(q(x) for x in t[v])))
    out.append("")
open("/verif/rocq/theories/TableauData.v", "w").write("\n".join(out))
print(sorted(tabs))
