"""Check that every citation 'file.py:a-b [name]' in the model points at the definition of name."""
import re,glob,os
bad=0
for f in sorted(glob.glob('/verif/rocq/theories/*_model.v')):
    txt=open(f).read()
    m=re.search(r'Model of (jax_cfd/[\w/]+)\.py',txt)
    base=os.path.dirname(m.group(1)) if m else None
    for c in re.finditer(r'([\w/]+\.py):(\d+)(?:-(\d+))?(?:,\s*[\d\-, ]+)?\s*\[([\w\.]+)\]',txt):
        fn,a,b,name=c.group(1),int(c.group(2)),int(c.group(3) or c.group(2)),c.group(4)
        cands=[p for p in glob.glob('/repo/jax_cfd/**/*.py',recursive=True) if p.endswith('/'+fn)]
        if base and '/' not in fn: 
            c2=[p for p in cands if p=='/repo/%s/%s'%(base,fn)]
            cands=c2 or cands
        ok=False; where=[]
        for p in cands:
            for i,l in enumerate(open(p).read().split('\n'),1):
                if re.search(r'(def|class)\s+%s\b'%name.split('.')[-1],l):
                    where.append((os.path.basename(p),i))
                    if a-3<=i<=b: ok=True
        if not ok: bad+=1; print(os.path.basename(f),c.group(0),where)
print('bad',bad)
