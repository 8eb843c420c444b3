"""Writes rocq/theories/GemCode.v from the assembly of the matrix products in /repo."""
import re
D='/repo/mat/internal/'
files=[('f32/asm32/axpyunitary_amd64.s','axpy_unitary32'),('f32/asm32/axpyunitaryto_amd64.s','axpy_unitary_to32'),
 ('f64/asm64/axpyunitary_amd64.s','axpy_unitary64'),('f64/asm64/axpyunitaryto_amd64.s','axpy_unitary_to64'),
 ('f64/asm64/cumsum_amd64.s','cum_sum64'),('f64/asm64/gemvN_amd64.s','gemv_n64')]
out=["(** Generated from the files cited by tools/gem2coq.py, which expands their macros and renames mnemonics. *)","From Coq Require Import ZArith String List.","From Verif Require Import AsmModel GemModel.","Import ListNotations.","Local Open Scope Z_scope.","Local Open Scope string_scope.",""]
G={'AX','BX','CX','DX','SI','DI','R8','R9','R10','R11','R12','R13','R14','R15'}
def num(s):
    assert s.startswith('$'); v=eval(s[1:],{}); assert isinstance(v,int); return v
def z(n): return '(%d)'%n if n<0 else str(n)
def fp(s):
    m=re.fullmatch(r'(\w+)\+\d+\(FP\)',s); return m.group(1) if m else None
def vreg(s):
    m=re.fullmatch(r'X(\d+)',s); return m.group(1) if m else None
def mem(s):
    m=re.fullmatch(r'([-\d*]*)\((\w+)\)(?:\((\w+)\*(\d+)\))?',s)
    if not m: return None
    d=eval(m.group(1),{}) if m.group(1) else 0
    assert m.group(2) in G and (m.group(3) is None or m.group(3) in G)
    return '(At %s %s %s)'%(m.group(2),'(Some (%s, %s))'%(m.group(3),m.group(4)) if m.group(3) else 'None',z(d))
def iop(s):
    if s in G: return '(R %s)'%s
    if fp(s): return '(FP "%s")'%fp(s)
    return '(N %s)'%z(num(s))
def vop(s): return '(V %s)'%vreg(s) if vreg(s) else '(M %s)'%mem(s)
I2={'MOVQ':'MovQ','CMPQ':'CmpQ','CMOVQLE':'CmovLE','CMOVQLT':'CmovLT','ADDQ':'AddQ','SUBQ':'SubQ','ANDQ':'AndQ','XORQ':'XorQ','SHRQ':'ShrQ','SHLQ':'ShlQ','IMULQ':'ImulQ','TESTQ':'TestQ'}
I1={'NEGQ':'NegQ','INCQ':'IncQ','DECQ':'DecQ'}
J={'JE':'Je','JZ':'Je','JNE':'Jne','JNZ':'Jne','JMP':'Jmp','LOOP':'Loop'}
BOP={'ADD':'Add','SUB':'Sub','MUL':'Mul','DIV':'Div'}
def tr(op,a):
    if op=='RET': return 'Ret'
    if op in J: return '%s "%s"'%(J[op],a[0])
    if op in I2: return '%s %s %s'%(I2[op],iop(a[0]),iop(a[1]))
    if op in I1: return '%s %s'%(I1[op],iop(a[0]))
    if op=='LEAQ': return 'Lea %s %s'%(mem(a[0]),a[1])
    if op in('MOVUPS','MOVAPS'):
        if vreg(a[0]) and vreg(a[1]): return 'Move %s %s'%(vreg(a[0]),vreg(a[1]))
        assert op=='MOVUPS'
        return 'Store %s %s'%(vreg(a[0]),mem(a[1])) if vreg(a[0]) else 'Load %s %s'%(mem(a[0]),vreg(a[1]))
    if op in('MOVSS','MOVSD','MOVLPD'):
        if vreg(a[0]): assert mem(a[1]); return 'StoreS %s %s'%(vreg(a[0]),mem(a[1]))
        assert op!='MOVLPD'
        if a[0]=='$0.0': return 'Clear %s'%vreg(a[1])
        if fp(a[0]): return 'ArgS "%s" %s'%(fp(a[0]),vreg(a[1]))
        return 'LoadS %s %s'%(mem(a[0]),vreg(a[1]))
    if op=='MOVHPD': return 'StoreH %s %s'%(vreg(a[0]),mem(a[1])) if vreg(a[0]) else 'LoadH %s %s'%(mem(a[0]),vreg(a[1]))
    if op=='MOVDDUP': return 'DupArg "%s" %s'%(fp(a[0]),vreg(a[1])) if fp(a[0]) else 'Dup %s %s'%(mem(a[0]),vreg(a[1]))
    if op in('SHUFPS','SHUFPD'):
        n=num(a[0])
        if n==0: assert a[1]==a[2]; return 'Spread %s'%vreg(a[1])
        assert op=='SHUFPD'; return 'Shuf %d %d %s %s'%(n&1,n>>1,vreg(a[1]),vreg(a[2]))
    if op in('XORPS','PXOR'): assert a[0]==a[1]; return 'Clear %s'%vreg(a[0])
    if op=='HADDPD': return 'Hadd %s %s'%(vreg(a[0]),vreg(a[1]))
    if op=='COMISD': return 'Comis %s %s'%(vreg(a[0]),vreg(a[1]))
    m=re.fullmatch(r'(ADD|SUB|MUL|DIV)(P|S)[SD]',op)
    if m: return '%s %s %s %s'%('BinS' if m.group(2)=='S' else 'Bin',BOP[m.group(1)],vop(a[0]),vreg(a[1]))
    raise Exception((op,a))
for f,name in files:
    src=open(D+f).read().split('\n'); macros={}; lines=[]; k=0
    while k<len(src):
        l=src[k]; n=k+1
        if l.startswith('#define'):
            body=[]; first=re.match(r'#define\s+(\w+)\s*(.*)',l); body.append(first.group(2))
            while body[-1].rstrip().endswith('\\'):
                body[-1]=body[-1].rstrip()[:-1].rstrip(); k+=1; body.append(src[k].strip())
            macros[first.group(1)]=[b for b in body if b]
        elif not l.startswith('//') and not l.startswith('#'): lines.append((n,re.sub(r'//.*','',l).rstrip()))
        k+=1
    def subst(s):
        for _ in range(3):
            s=re.sub(r'\b[A-Z_]\w*\b',lambda m: macros[m.group(0)][0] if m.group(0) in macros and len(macros[m.group(0)])==1 else m.group(0),s)
        return s
    blocks=None; start=end=None; fn=None
    def emit(l):
        p=l.strip().split(None,1); a=[subst(x.strip()) for x in p[1].split(',')] if len(p)>1 else []
        blocks[-1][1].append(tr(p[0],a))
    def expand(l):
        w=l.strip()
        if w in macros:
            for b in macros[w]: expand(b)
        else: emit(w)
    for n,l in lines:
        m=re.match(r'TEXT ·(\w+)\(SB\)',l)
        if m: fn=m.group(1); start=n; blocks=[('entry',[])]
        elif blocks is not None and re.match(r'^(\w+):\s*$',l): blocks.append((l.strip()[:-1],[])); end=n
        elif blocks is not None and l.strip(): expand(l); end=n
    out.append('(** %s: mat/internal/%s:%d-%d *)'%(fn,f,start,end))
    out.append('Definition %s : code := ['%name)
    out.append(';\n'.join('  ("%s", [%s])'%(l,';\n      '.join(i)) for l,i in blocks)+'].\n')
open('/verif/rocq/theories/GemCode.v','w').write('\n'.join(out))
