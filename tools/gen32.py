#!/usr/bin/env python3
"""Generate the f32 versions of the rounding-error proofs from the f64 ones:
the proofs are the same, only the format (24 bits, exponent up to 128 instead of
53 and 1024) and the constants that depend on it differ."""
import re
D='/verif/rocq/theories/'
FILES=['B64','SpecFloat64','FloatBase','FloatThms','FloatMoreThms','FloatLU','FloatLUThms','SpecFloatPrio','FloatPrio','FloatPrioThms','FloatChol','FloatCholThms',
       'FloatCholFull','FloatCholFullThms','FloatCholPrioThms','FloatNanThms','FloatSolveFin','FloatSolveFinThms','FloatCholFin','FloatCholFinThms','RealVec','QRReal','FloatQR','FloatQRThms','FloatQRPrio','FloatQRPrioThms','FloatRobustThms','SpecFloatPinv','FloatPinvThms','SpecFloatPinvPrio','FloatPinvPrioThms','FloatQRSolveThms','FloatRankThms','FloatSingThms']
def mod(m):
    return {'B64':'B32','SpecFloat64':'SpecFloat32','RealVec':'RealVec32','QRReal':'QRReal32'}.get(m) or m.replace('Float','Float32',1)
POW={'53':'24','1075':'150','1023':'127','1022':'126','1020':'124'}
FILEPOW={'FloatMoreThms':{'1000':'100','512':'64'},'FloatCholFull':{'900':'100','1000':'104','122':'26'},'FloatCholFullThms':{'900':'100','1000':'104'},'FloatCholPrioThms':{'900':'100','1000':'104'},'FloatCholFinThms':{'900':'100','1000':'104'},
         'FloatQR':{'480':'50','510':'62','512':'64','522':'74','47':'18','48':'19','50':'21'},
         'FloatQRPrio':{'200':'20','170':'15','171':'16','50':'21','51':'22','480':'50','510':'62','47':'18','48':'19'},
         'FloatQRPrioThms':{'198':'18','169':'14','512':'64','510':'62'},
         'FloatQRThms':{'480':'50','510':'62','512':'64','47':'18','600':'80','507':'59','511':'63'},
         'SpecFloatPinv':{'512':'64'},'FloatPinvThms':{'480':'50','510':'62','512':'64','600':'80','520':'66'},
         'SpecFloatPinvPrio':{'512':'64'},'FloatPinvPrioThms':{'198':'18','169':'14','512':'64','510':'62','480':'50','171':'16','200':'20'},
         'FloatQRSolveThms':{'198':'18','169':'14','600':'80','52':'24'},
         'FloatRankThms':{'1024':'128'}}
import sys
sys.path.insert(0,'/verif/tools')
from gen32_rules import RULES
for f in FILES:
    s=open(D+f+'.v').read()
    for a,b in RULES.get(f,[]):
        assert a in s,(f,a)
        s=s.replace(a,b)
    pw={**POW,**FILEPOW.get(f,{})}
    # numerals that are exponents
    s=re.sub(r'(2 ?\^ ?-?)(\d+)',lambda m:m.group(1)+pw.get(m.group(2),m.group(2)),s)
    s=re.sub(r'(bpow radix2 \(?-?)(\d+)',lambda m:m.group(1)+pw.get(m.group(2),m.group(2)),s)
    s=re.sub(r'\((pow_add|@Rle_pow) 2 (\d+) (\d+)\)',lambda m:f'({m.group(1)} 2 {pw.get(m.group(2),m.group(2))} {pw.get(m.group(3),m.group(3))})',s)
    s=re.sub(r'p2_gt0 (\d+)',lambda m:'p2_gt0 '+pw.get(m.group(1),m.group(1)),s)
    s=re.sub(r'(b64_of \(?-?\d+\)? \(?-?)(\d+)',lambda m:m.group(1)+pw.get(m.group(2),m.group(2)),s)
    names=re.findall(r'^Lemma (\w+)_L :',s,re.M)
    for n in names:
        if 'f64' not in n: s=re.sub(r'\b'+n+r'_L\b',n+'_f32_L',s)
    s=s.replace('_f32_f32_L','_f32_L')
    for m in FILES:
        s=re.sub(r'\b'+m+r'\b',mod(m),s)
    for a,b in [('b64','b32'),('B64','B32'),('u64','u32'),('eta64','eta32'),('big64','big32'),('om64','om32'),('f64','f32'),('binary64','binary32'),('mul_ok64','mul_ok32'),('dot64','dot32'),('sum64','sum32'),('norm64','norm32'),('chol64','chol32'),('sqrt_pos64','sqrt_pos32')]:
        s=s.replace(a,b)
    if f=='B64':
        s=s.replace(': Z := 53.',': Z := 24.').replace(': Z := 1024.',': Z := 128.')
    s=re.sub(r'(\(\*@(?:doc|section) )C(\d\d)\b',r'\1C62 (C\2 in f32)',s)
    if f=='B64':
        s=s.replace('As B32.v','As B64.v'); s=s.replace("ties to even. *)","ties to even.\n    [s_eps], [s_tiny], ... are the f64 constants of the source converted to f32\n    (num::cast): 2^-52, and 2^-966, which becomes 0.  0.964 is not half-way\n    between two f32, so that rounding it twice makes no difference. *)",1)
    s=s.replace("(** * ","(** * (generated by tools/gen32.py from %s.v) "%f,1)
    open(D+mod(f)+'.v','w').write(s)
