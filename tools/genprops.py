#!/usr/bin/env python3
"""Generate Prop*.v from *Thms.v: each `Lemma foo_L : stmt. Proof. ...` becomes
`Theorem foo : stmt. Proof. exact: foo_L. Qed. Print Assumptions foo.`
(*@doc ..*), (*@section .. @*), (*@example .. @*), (*@header .. @*) blocks are copied."""
import re,sys
src,dst,title=sys.argv[1:4]
s=open(src).read()
mod=src.split('/')[-1][:-2]
hdr=re.search(r'^From \S+.*?(?=^Set Implicit)',s,re.S|re.M).group(0)
imports=re.findall(r'^Import [^\n]*$',s,re.M)
out=[f"(** * {title}\n\n    Only property theorems, each closed by a lemma of {mod}.v, and the\n    Examples showing that their hypotheses are met.  Generated from {mod}.v by\n    tools/genprops.py. *)\n",
     hdr.rstrip()+f"\nFrom Verif Require Import {mod}.\n",
     "\nSet Implicit Arguments.\nUnset Strict Implicit.\nUnset Printing Implicit Defensive.\n"+"\n".join(imports)+"\n"]
scopes=re.findall(r'^Local Open Scope [^\n]*$',s,re.M)
out.append("\n".join(scopes)+"\n")
pat=re.compile(r'\(\*@section (.*?)@\*\)|\(\*@doc(.*?)\*\)|\(\*@example(.*?)@\*\)|^Lemma (\w+)_L :\s+(.*?)\.\nProof\.',re.S|re.M)
doc=None
for m in pat.finditer(s):
    if m.group(1): out.append(f"\n(** ** {m.group(1).strip()} *)\n")
    elif m.group(2): doc=m.group(2).strip()
    elif m.group(3): out.append("\n"+m.group(3).strip()+"\n")
    else:
        n,st=m.group(4),m.group(5)
        if doc: out.append(f"\n(** {doc} *)"); doc=None
        out.append(f"\nTheorem {n} : {st}.\nProof. exact: {n}_L. Qed.\nPrint Assumptions {n}.\n")
open(dst,'w').write("".join(out))
