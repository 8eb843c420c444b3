import re,sys
D='/repo/mat/internal/matfuncs/'
files=['add','sub','div','addconst','mulconst','sum','dotprod','exp','log']
out=["(** Generated from mat/internal/matfuncs/*_amd64.s, one instruction per line of those files, by a script that only\n    renames mnemonics; the comment of each definition cites its lines. *)","From Coq Require Import ZArith String List.","From Verif Require Import AsmModel.","Import ListNotations.","Local Open Scope Z_scope.","Local Open Scope string_scope.",""]
BOP={'ADD':'Add','SUB':'Sub','MUL':'Mul','DIV':'Div','MIN':'Min','MAX':'Max'}
def num(s): return str(int(s.lstrip('$'),0))
def neg(n): return n if not n.startswith('-') else '(%s)'%n
def vreg(s): m=re.fullmatch(r'([XY])(\d+)',s); return m
def mem(s):
    m=re.fullmatch(r'(-?\d*)\((AX|BX|CX|DX|SI)\)',s)
    return (m.group(2), m.group(1) or '0') if m else None
def operand(s,data):
    v=vreg(s)
    if v: return '(Reg %s)'%v.group(2)
    m=mem(s)
    if m: return '(Mem %s %s)'%m
    m=re.fullmatch(r'(\w+)<>\+0\(SB\)',s)
    if m: return '(Sym %d)'%data[m.group(1)]
    raise Exception(s)
G={'AX','BX','CX','DX','SI'}
def tr(op,a,data):
    vex=op.startswith('V'); o=op[1:] if vex else op; vx='true' if vex else 'false'
    b='true' if vex else 'false'
    if op=='RET': return 'Ret'
    if op in('JL',): return 'Jl "%s"'%a[0]
    if op in('JE','JZ'): return 'Je "%s"'%a[0]
    if op in('JNZ','JNE'): return 'Jne "%s"'%a[0]
    if op=='JMP': return 'Jmp "%s"'%a[0]
    if op=='CMPQ': return 'CmpQ %s %s'%(a[0],num(a[1]))
    if op in('ADDQ','SUBQ','ANDQ','XORQ','SHRQ'): return '%s %s %s'%({'ADDQ':'AddQ','SUBQ':'SubQ','ANDQ':'AndQ','XORQ':'XorQ','SHRQ':'ShrQ'}[op],num(a[0]),a[1])
    if op=='DECQ': return 'DecQ '+a[0]
    if op=='INCQ': return 'IncQ '+a[0]
    if op=='MOVQ':
        m=re.fullmatch(r'(\w+)\+\d+\(FP\)',a[0])
        if m: return 'Arg "%s" %s'%(m.group(1),a[1])
        assert a[0] in G and a[1] in G; return 'MovQ %s %s'%(a[0],a[1])
    if o in('MOVUPS','MOVUPD'):
        if mem(a[0]): return 'Load %s %s %s %s %s'%((a[1][0],vx)+mem(a[0])+(vreg(a[1]).group(2),))
        return 'Store %s %s %s %s'%((a[0][0],vreg(a[0]).group(2))+mem(a[1]))
    if o in('MOVSS','MOVSD'):
        if mem(a[0]): return 'LoadS %s %s %s %s'%((vx,)+mem(a[0])+(vreg(a[1]).group(2),))
        m=re.fullmatch(r'(\w+)\+\d+\(FP\)',a[0])
        if m: assert not vex; return 'ArgS "%s" %s'%(m.group(1),vreg(a[1]).group(2))
        m=re.fullmatch(r'ret\+\d+\(FP\)',a[1])
        if m: return 'Result %s'%vreg(a[0]).group(2)
        return 'StoreS %s %s %s'%((vreg(a[0]).group(2),)+mem(a[1]))
    if o=='MOVAPS': return 'Move %s %s %s %s'%(a[1][0],vx,operand(a[0],data),vreg(a[1]).group(2))
    if o in('BROADCASTSS','BROADCASTSD','PBROADCASTD'):
        if vreg(a[0]): return 'Spread %s true %s %s'%(a[1][0],vreg(a[0]).group(2),vreg(a[1]).group(2))
        return 'Move %s true %s %s'%(a[1][0],operand(a[0],data),vreg(a[1]).group(2))
    if o in('SHUFPS','SHUFPD'):
        assert num(a[0])=='0' and a[1]==a[2]; return 'Spread X false %s %s'%(vreg(a[1]).group(2),vreg(a[2]).group(2))
    if o in('XORPS','XORPD'):
        assert len(set(a))==1; return 'Clear %s %s %s'%(a[0][0],vx,vreg(a[0]).group(2))
    if op=='VZEROALL': return 'ClearAll'
    if o=='EXTRACTF128': assert num(a[0])=='1'; return 'Extract %s %s'%(vreg(a[1]).group(2),vreg(a[2]).group(2))
    if o in('HADDPS','HADDPD'):
        s=a[1]; d=a[2] if vex else a[1]; assert s[0]=='X'; return 'Hadd %s %s %s %s'%(vx,vreg(a[0]).group(2),vreg(s).group(2),vreg(d).group(2))
    m=re.fullmatch(r'FMADD231(P|S)[SD]',o)
    if m:
        if m.group(1)=='P': return 'Fma %s %s %s %s'%(a[2][0],operand(a[0],data),vreg(a[1]).group(2),vreg(a[2]).group(2))
        return 'FmaS %s %s %s'%(operand(a[0],data),vreg(a[1]).group(2),vreg(a[2]).group(2))
    if o=='CMPPS':
        if vex: i,b_,s,d=num(a[0]),a[1],a[2],a[3]
        else: b_,s,i=a[0],a[1],num(a[2]); d=s
        return 'Bin %s %s %s %s %s %s'%({'1':'Cmplt','2':'Cmple'}[i],d[0],vx,operand(b_,data),vreg(s).group(2),vreg(d).group(2))
    m=re.fullmatch(r'(ADD|SUB|MUL|DIV|MIN|MAX)(P|S)[SD]',o)
    if m or o in('ANDPS','ORPS','PADDD'):
        name={'ANDPS':'And','ORPS':'Or','PADDD':'Addd'}[o] if not m else BOP[m.group(1)]
        s=vreg(a[1]).group(2); d=vreg(a[2]).group(2) if vex else s
        z=a[1][0]
        if m and m.group(2)=='S': return 'BinS %s %s %s %s %s'%(name,vx,operand(a[0],data),s,d)
        return 'Bin %s %s %s %s %s %s'%(name,z,vx,operand(a[0],data),s,d)
    if o=='ROUNDPS': assert num(a[0])=='1'; return 'Un Floor %s %s %s %s'%(a[1][0],vx,vreg(a[1]).group(2),vreg(a[2]).group(2))
    if o in('CVTTPS2DQ','CVTTPS2PL'): return 'Un Trunc %s %s %s %s'%(a[0][0],vx,vreg(a[0]).group(2),vreg(a[1]).group(2))
    if o in('CVTDQ2PS','CVTPL2PS'): return 'Un OfInt %s %s %s %s'%(a[0][0],vx,vreg(a[0]).group(2),vreg(a[1]).group(2))
    if o in('PSLLD','PSLLL','PSRLD','PSRLL'):
        c='Shl' if 'PSLL' in o else 'Shr'; s=a[1]; d=a[2] if len(a)==3 else a[1]
        return 'Un (%s %s) %s %s %s %s'%(c,num(a[0]),s[0],vx,vreg(s).group(2),vreg(d).group(2))
    raise Exception((op,a))
for f in files:
    lines=open(D+f+'_amd64.s').read().split('\n'); data={}
    cur=None
    def emit():
        global cur
        if cur:
            name,start,end,blocks=cur
            n=re.sub(r'(AVX|SSE)(\d+)$',lambda m:'_'+m.group(1).lower()+m.group(2),name); n=re.sub(r'(?<=[a-z])([A-Z])',lambda m:'_'+m.group(1).lower(),n).lower()
            out.append('(** %s: mat/internal/matfuncs/%s_amd64.s:%d-%d *)'%(name,f,start,end))
            out.append('Definition %s : code := ['%n)
            out.append(';\n'.join('  ("%s", [%s])'%(l,';\n      '.join(i)) for l,i in blocks)+'].\n')
    for k,l in enumerate(lines,1):
        m=re.match(r'TEXT ·(\w+)\(SB\)',l)
        d=re.match(r'DATA (\w+)<>\+(\d+)\(SB\)/4, \$(0x[0-9a-f]+)',l)
        if d:
            v=int(d.group(3),16)
            if d.group(2)=='0': data[d.group(1)]=v
            else: assert data[d.group(1)]==v
        if m:
            emit(); cur=[m.group(1),k,k,[('entry',[])]]
        elif cur and re.match(r'^(\w+):$',l): cur[3].append((l[:-1],[])); cur[2]=k
        elif cur and l.startswith('\t'):
            p=l.strip().split(None,1); a=[x.strip() for x in p[1].split(',')] if len(p)>1 else []
            cur[3][-1][1].append(tr(p[0],a,data)); cur[2]=k
    emit(); cur=None
open('/verif/rocq/theories/AsmCode.v','w').write('\n'.join(out))
