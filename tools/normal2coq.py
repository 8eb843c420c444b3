# Writes rocq/theories/GaussTables.v from the tables of /repo/mat/internal/rand/normal.go.
import re
src=open('/repo/mat/internal/rand/normal.go').read().split('\n')
def table(name):
    a=next(k for k,l in enumerate(src) if l.startswith('var %s = '%name)); b=next(k for k in range(a,len(src)) if src[k]=='}')
    items=[t.strip() for l in src[a+1:b] for t in l.split(',') if t.strip()]
    assert len(items)==128
    return a+1,b+1,items
def decimal(t):
    m=re.fullmatch(r'(\d+)(?:\.(\d*))?(?:e([-+]\d+))?',t); i,f,e=m.group(1),m.group(2) or '',int(m.group(3) or 0)
    return '(%d, %d)'%(int(i+f),len(f)-e)
def lines(xs,n): return ';\n  '.join('; '.join(xs[k:k+n]) for k in range(0,len(xs),n))
out=['(** Generated from the tables of mat/internal/rand/normal.go, entry by entry, by tools/normal2coq.py.','    (m, k) is the decimal literal m * 10^-k. *)','From Coq Require Import ZArith List.','Import ListNotations.','Local Open Scope Z_scope.','']
a,b,t=table('kn'); out+=['(** kn: mat/internal/rand/normal.go:%d-%d *)'%(a,b),'Definition kn_table : list Z := [\n  %s].'%lines([str(int(x,0)) for x in t],8)]
for n in ('wn','fn'):
    a,b,t=table(n); out+=['(** %s: mat/internal/rand/normal.go:%d-%d *)'%(n,a,b),'Definition %s_table : list (Z * Z) := [\n  %s].'%(n,lines([decimal(x) for x in t],6))]
open('/verif/rocq/theories/GaussTables.v','w').write('\n'.join(out)+'\n')
