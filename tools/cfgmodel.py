#!/usr/bin/env python3
"""Reads the conditional-compilation structure of /repo/src and writes rocq/theories/ConfigModel.v.

Only the tool's output is part of the model; every node of it carries the file and lines it comes from."""
import re,os,sys
R='/repo/src/'
OUT='/verif/rocq/theories/ConfigModel.v'
def rd(f): return open(R+f).read()
def line_of(s,i): return s.count('\n',0,i)+1
# ---------------------------------------------------------------- lexical level
def tok(s,i):
    if s.startswith('//',i):
        j=s.find('\n',i); return len(s) if j<0 else j
    if s.startswith('/*',i): return s.index('*/',i)+2
    m=re.compile(r'b?r(#*)"').match(s,i)
    if m and (i==0 or not (s[i-1].isalnum() or s[i-1]=='_')):
        return s.index('"'+m.group(1),m.end())+1+len(m.group(1))
    if s[i]=='"':
        j=i+1
        while s[j]!='"': j+=2 if s[j]=='\\' else 1
        return j+1
    if s[i]=="'":
        m=re.compile(r"'(\\.[^']*|[^\\'])'").match(s,i)
        if m: return m.end()
    return i+1
def skip(s,i,e):
    while i<e:
        if s[i].isspace(): i+=1
        elif s.startswith('//',i) or s.startswith('/*',i): i=tok(s,i)
        else: break
    return i
def close(s,i):
    d=0
    while True:
        if s[i] in '([{': d+=1; i+=1
        elif s[i] in ')]}':
            d-=1; i+=1
            if d==0: return i
        else: i=tok(s,i)
def pexp(s,i):
    i=skip(s,i,len(s))
    m=re.compile(r'[a-z_0-9]+').match(s,i); w=m.group(0); i=skip(s,m.end(),len(s))
    if w in('any','all','not') and s[i]=='(':
        i=skip(s,i+1,len(s)); l=[]
        while s[i]!=')':
            e,i=pexp(s,i); l.append(e); i=skip(s,i,len(s))
            if s[i]==',': i=skip(s,i+1,len(s))
        i+=1
        if w=='not': assert len(l)==1; return ('not',l[0]),i
        return (w,l),i
    if s[i]=='=':
        i=skip(s,i+1,len(s)); assert s[i]=='"'
        j=s.index('"',i+1); return ('kv',w,s[i+1:j]),j+1
    return ('flag',w),i
def attr(s,i):
    end=close(s,i+1); a=s[i:end]
    if a.startswith('#[cfg(else)]'): return ('else',),end
    if a.startswith('#[cfg('):
        e,_=pexp(s,i+6); return ('cfg',e),end
    m=re.match(r'#\[cfg_attr\(',a)
    if m:
        p,k=pexp(s,i+m.end()); k=skip(s,k,end); assert s[k]==','; k=skip(s,k+1,end)
        if s.startswith('cfg(',k):
            q,_=pexp(s,k+4); return ('cfg_attr',p,q),end
        m2=re.compile(r'path\s*=\s*"([^"]*)"').match(s,k)
        if m2: return ('path',p,m2.group(1)),end
        return None,end
    m2=re.match(r'#\[path = "([^"]*)"\]',a)
    if m2: return ('path',('all',[]),m2.group(1)),end
    return None,end
BLOCK=re.compile(r'(items|cfg_core_atomic|cfg_has_[a-z0-9_]+|cfg_no_[a-z0-9_]+)!\s*(\(\{|\{|\()')
USE=re.compile(r'(pub(\([a-z]+\))? )?use\b')
def walk(s,i,e):
    out=[]; i=skip(s,i,e)
    while i<e:
        if s.startswith('#!',i): i=skip(s,close(s,i+2),e); continue
        at=[]; st=i
        while s.startswith('#[',i):
            a,i=attr(s,i)
            if a: at.append(a)
            i=skip(s,i,e)
        if i>=e: break
        ln=(line_of(s,st),line_of(s,i))
        m=re.compile(r'cfg_sel!\s*\(\{').match(s,i)
        if m:
            b=m.end()-1; be=close(s,b); j=skip(s,b+1,be-1); br=[]
            while j<be-1:
                bat=[]; bs=j
                while s.startswith('#[',j):
                    a,j=attr(s,j)
                    if a: bat.append(a)
                    j=skip(s,j,be)
                k=close(s,j)
                br.append((bat,walk(s,j+1,k-1),(line_of(s,bs),line_of(s,k))))
                j=skip(s,k,be-1)
            i=skip(s,be,e); assert s[i]==')'; i=skip(s,i+1,e)
            if i<e and s[i]==';': i=skip(s,i+1,e)
            out.append(('sel',at,br,(ln[0],line_of(s,be)))); continue
        m=BLOCK.match(s,i)
        if m:
            b=m.end()-1; be=close(s,b); body=walk(s,b+1,be-1); i=be
            if m.group(2)=='({':
                i=skip(s,i,e); assert s[i]==')'; i+=1
            i=skip(s,i,e)
            if i<e and s[i]==';': i=skip(s,i+1,e)
            out.append(('block',at,m.group(1),body,ln)); continue
        j=i
        while j<e:
            c=s[j]
            if c==';': j+=1; break
            if c in '([{':
                j=close(s,j)
                if c=='{':
                    head=s[i:j]
                    if USE.match(head): continue
                    q=skip(s,j,e)
                    if q<e and s[q]==';' and re.match(r'(pub(\([a-z]+\))? )?(static|const|type)\b',head): j=q+1
                    break
                continue
            if c in ')]}': raise Exception('unbalanced at line %d'%line_of(s,j))
            j=tok(s,j)
        out.append(('item',at,s[i:j],ln,i,j)); i=skip(s,j,e)
    return out
# ---------------------------------------------------------------- items of interest
def usepaths(t):
    t=re.sub(r'//.*','',t); t=re.sub(r'\s+',' ',t).strip().rstrip(';')
    t=re.match(r'(?:pub(?:\([a-z]+\))? )?use (.*)$',t).group(1).strip(); out=[]
    def go(pre,t):
        t=t.strip(); i=t.find('{')
        if i>=0:
            p=[x for x in t[:i].split('::') if x]; inner=t[i+1:t.rindex('}')]
            d=0;cur='';parts=[]
            for c in inner:
                if c=='{':d+=1
                if c=='}':d-=1
                if c==',' and d==0: parts.append(cur);cur=''
                else: cur+=c
            if cur.strip(): parts.append(cur)
            for q in parts: go(pre+p,q)
        else:
            m=re.match(r'(.*?)(?: as (\w+))?$',t); p=[x.strip() for x in m.group(1).split('::')]
            out.append((pre+p[:-1],p[-1],m.group(2) or p[-1]))
    go([],t); return out
def absp(path,p):
    p=list(p); cur=list(path)
    if p and p[0]=='crate': return p[1:]
    if p and p[0]=='self': p=p[1:]
    while p and p[0]=='super': cur=cur[:-1]; p=p[1:]
    if p and p[0] in('core','std'): return None
    return cur+p
TYPEDEF=re.compile(r'(?:atomic_int|atomic|atomic_sub_word|atomic64|atomic128|atomic_float)!\((?:(?:all_critical_session|load_store_atomic)(?:\[sub_word\])?, )?\s*(Atomic\w+),')
NOTYPES=('imp/x86.rs','imp/arm_linux.rs','imp/msp430.rs','imp/avr.rs','imp/float/aarch64.rs')  # impl blocks on types defined elsewhere
SKIPMOD=('tests','detect','test_detect_auxv','build','check','hint','diagnostic_helper')
# nodes: ('def',at,name,cite) ('use',at,path,name,as,cite) ('ref',at,path,name,cite) ('mod',at,name,[(cond,items)],cite)
#        ('items',at,[..],cite) ('sel',at,[(at|None,items,cite)],cite) ('block',at,macro,[..],cite)
#        ('macro',at,name,None|attrs,cite) ('alias',at,new,old,cite) ('err',at,cite)
def conv(items,f,path,s):
    out=[]
    for x in items:
        at=[a for a in x[1] if a[0] in('cfg','cfg_attr')]
        if x[0]=='block':
            c='%s:%d-%d'%((f,)+x[4]); b=conv(x[3],f,path,s)
            out.append(('items',at,b,c) if x[2]=='items' else ('block',at,x[2],b,c))
        elif x[0]=='sel':
            br=[]
            for bat,body,ln in x[2]:
                els=[a for a in bat if a[0]=='else']
                br.append((None if els else [a for a in bat if a[0]!='else'],conv(body,f,path,s),'%s:%d-%d'%(f,ln[0],ln[1])))
            out.append(('sel',at,br,'%s:%d-%d'%((f,)+x[3])))
        else:
            _,rawat,t,ln,i,j=x; c='%s:%d-%d'%(f,ln[0],ln[1])
            m=re.match(r'(?:pub(?:\([a-z]+\))? )?mod (\w+)\s*(;|\{)',t)
            if m:
                n=m.group(1)
                if n in SKIPMOD: continue
                if n=='utils' and path==[]:     # only the macros of gen/utils.rs matter here (src/utils.rs includes it)
                    out.append(('mod',at,n,[(None,parse('gen/utils.rs',[n]))],c)); continue
                if m.group(2)=='{':
                    b=i+t.index('{'); out.append(('mod',at,n,[(None,conv(walk(s,b+1,j-1),f,path+[n],s))],c)); continue
                d=os.path.dirname(f)
                def file(n): return os.path.join(d,n) if os.path.basename(f) in('mod.rs','lib.rs') else os.path.join(d,os.path.basename(f)[:-3],n)
                bodies=[]
                fin=False
                for _,pc,p in [a for a in rawat if a[0]=='path']:
                    pf=os.path.normpath(os.path.join(d,p))
                    bodies.append((None if pc==('all',[]) else pc,parse(pf,path+[n]))); fin=fin or pc==('all',[])
                if not fin:
                    for cc in (n+'.rs',n+'/mod.rs'):
                        if os.path.exists(R+file(cc)): bodies.append((None,parse(file(cc),path+[n])))
                out.append(('mod',at,n,bodies,c)); continue
            if USE.match(t):
                for p,n,asn in usepaths(t):
                    if n=='*' or asn=='_': continue
                    if n.startswith('cfg_'):
                        out.append(('alias',at,asn,n,c)); continue
                    ap=absp(path,p)
                    if ap is None: out.append(('def',at,asn,c)); continue
                    if ap[:1] in(['utils'],['diagnostic_helper'],['hint']): continue
                    if n=='self': out.append(('use',at,ap[:-1],ap[-1],ap[-1],c)); continue
                    out.append(('use',at,ap,n,asn,c))
                continue
            m=re.match(r'include!\("([^"]*)"\)',t)
            if m:
                out.append(('items',at,parse(os.path.normpath(os.path.join(os.path.dirname(f),m.group(1))),path),c)); continue
            m=re.match(r'macro_rules! (\w+)',t)
            if m:
                n=m.group(1)
                if n.startswith('cfg_') and n!='cfg_sel':
                    if n=='cfg_core_atomic':
                        b=i+t.index('=> {')+3
                        body=walk(s,b+1,close(s,b)-1); assert len(body)==1
                        out.append(('macro',at,n,[a for a in body[0][1] if a[0] in('cfg','cfg_attr')],c))
                    else:
                        body=t[t.index('=>')+2:]
                        out.append(('macro',at,n,[] if re.match(r'\s*\{\s*\$\(\$tt\)\*\s*\}',body) else None,c))
                continue
            if t.startswith('compile_error!'): out.append(('err',at,c)); continue
            m=TYPEDEF.match(t)
            if m and f not in NOTYPES:
                n=m.group(1); out.append(('def',at,n,c))
                if f=='lib.rs':
                    out.append(('ref',at,['imp'],n,c))
                    mm=re.search(r'#\[cfg\(',t)
                    if mm:
                        cc,_=pexp(t,mm.end()); fn=re.search(r'\] (Atomic\w+),',t).group(1)
                        out.append(('def',at+[('cfg',cc)],fn,c)); out.append(('ref',at+[('cfg',cc)],['imp','float'],fn,c))
                if t.startswith('atomic_float!'):
                    out.append(('ref',at,['imp'],re.search(r', (AtomicU\d+),',t).group(1),c))
                continue
            if re.match(r'atomic_ptr!|atomic_base!\(base, \[T\]',t): out.append(('def',at,'AtomicPtr',c)); continue
            m=re.match(r'(?:pub(?:\([a-z]+\))? )?(?:unsafe )?(struct|fn|const fn|static|const|type|trait|enum)\s+(\w+)',t)
            if m and m.group(2)!='_':
                out.append(('def',at,m.group(2),c))
                if m.group(1)=='type':
                    mm=re.search(r'= ((?:super::)+)(\w+)::(Atomic\w+);',t)
                    if mm: out.append(('ref',at,absp(path,['super']*mm.group(1).count('super')+[mm.group(2)]),mm.group(3),c))
                if f=='lib.rs' and m.group(2)=='AtomicBool': out.append(('ref',at,['imp'],'AtomicU8',c))
                if f=='lib.rs' and m.group(2)=='AtomicPtr': out.append(('ref',at,['imp'],'AtomicPtr',c))
    return out
cache={}
def parse(f,path):
    s=rd(f); return conv(walk(s,0,len(s)),f,path,s)
crate=parse('lib.rs',[])
# ---------------------------------------------------------------- pruning of names nobody mentions
needed=set()
def coll(l,path):
    for x in l:
        k=x[0]
        if k=='use': needed.add((tuple(x[2]),x[3]))
        elif k=='ref': needed.add((tuple(x[2]),x[3]))
        elif k=='mod':
            for _,b in x[3]: coll(b,path+[x[2]])
        elif k=='items': coll(x[2],path)
        elif k=='block': coll(x[3],path)
        elif k=='sel':
            for _,b,_ in x[2]: coll(b,path)
coll(crate,[])
def interesting(path,n): return (tuple(path),n) in needed or n.startswith('Atomic') and not n.endswith('Chunk') and not n.endswith('dw') or (n in('fence','compiler_fence') and path==[])
def cfgfalse(at):
    return any(a==('cfg',('flag','test')) for a in at)
def prune(l,path):
    out=[]
    for x in l:
        k=x[0]
        if cfgfalse(x[1]): continue
        if k=='def':
            if interesting(path,x[2]): out.append(x)
        elif k=='mod':
            b=[(c,prune(b,path+[x[2]])) for c,b in x[3]]
            if any(bb for _,bb in b) or interesting(path,x[2]): out.append(('mod',x[1],x[2],b,x[4]))
        elif k=='items':
            b=prune(x[2],path)
            if b: out.append(('items',x[1],b,x[3]))
        elif k=='block':
            b=prune(x[3],path)
            if b: out.append(('block',x[1],x[2],b,x[4]))
        elif k=='sel':
            b=[(a,prune(bb,path),c) for a,bb,c in x[2]]
            if any(bb for _,bb,_ in b): out.append(('sel',x[1],b,x[3]))
        else: out.append(x)
    return out
crate=prune(crate,[])
# ---------------------------------------------------------------- output
def q(s): return '"%s"'%s
def cfg(c):
    if c[0]=='kv': return 'KV %s %s'%(q(c[1]),q(c[2]))
    if c[0]=='flag': return 'Flag %s'%q(c[1])
    if c[0]=='not': return 'Not (%s)'%cfg(c[1])
    return '%s [%s]'%('All' if c[0]=='all' else 'Any','; '.join(map(cfg,c[1])))
def attrs(l):
    return '['+'; '.join('Cfg (%s)'%cfg(a[1]) if a[0]=='cfg' else 'CfgAttr (%s) (%s)'%(cfg(a[1]),cfg(a[2])) for a in l)+']'
def path(p): return '['+'; '.join(map(q,p))+']'
def emit(l,ind):
    sp=' '*ind; r=[]
    for x in l:
        k=x[0]; cm='(* %s *) '%x[-1]
        if k=='def': r.append('%s%sDef %s %s'%(sp,cm,attrs(x[1]),q(x[2])))
        elif k=='use': r.append('%s%sUse %s %s %s %s'%(sp,cm,attrs(x[1]),path(x[2]),q(x[3]),q(x[4])))
        elif k=='ref': r.append('%s%sRef %s %s %s'%(sp,cm,attrs(x[1]),path(x[2]),q(x[3])))
        elif k=='err': r.append('%s%sCompileError %s'%(sp,cm,attrs(x[1])))
        elif k=='alias': r.append('%s%sMacroAlias %s %s %s'%(sp,cm,attrs(x[1]),q(x[2]),q(x[3])))
        elif k=='macro': r.append('%s%sMacroDef %s %s %s'%(sp,cm,attrs(x[1]),q(x[2]),'None' if x[3] is None else '(Some %s)'%attrs(x[3])))
        elif k=='items': r.append('%s%sItems %s [\n%s]'%(sp,cm,attrs(x[1]),emit(x[2],ind+2)))
        elif k=='block': r.append('%s%sBlock %s %s [\n%s]'%(sp,cm,attrs(x[1]),q(x[2]),emit(x[3],ind+2)))
        elif k=='mod':
            bs=';\n'.join('%s  (%s, [\n%s])'%(sp,'All []' if c is None else cfg(c),emit(b,ind+4)) for c,b in x[3])
            r.append('%s%sMod %s %s [\n%s]'%(sp,cm,attrs(x[1]),q(x[2]),bs))
        elif k=='sel':
            bs=';\n'.join('%s  (* %s *) (%s, [\n%s])'%(sp,c,'None' if a is None else 'Some %s'%attrs(a),emit(b,ind+4)) for a,b,c in x[2])
            r.append('%s%sSel %s [\n%s]'%(sp,cm,attrs(x[1]),bs))
    return ';\n'.join(r)
HEAD='''(** * The conditional-compilation structure of the crate

    Written by tools/cfgmodel.py from /repo/src: every [cfg] attribute, [cfg_sel!], [items!] and [cfg_*!] block, module
    declaration, [use] of a crate-internal name and definition of such a name, with the lines it comes from.
    Simplifications: the [test] modules, the [detect], [hint] and [diagnostic_helper] modules and the names nobody in
    the crate mentions by path are left out; a type defined by a macro call ([atomic_int!(AtomicI8, ..)]) is a definition of that
    type; of src/utils.rs only the included gen/utils.rs (the fast-64-bit macros) is kept; macros are visible everywhere
    (textual scope is not modelled); cfgs inside function bodies and on methods are not included. *)
From Coq Require Import String List.
From Verif Require Import ConfigSpec.
Import ListNotations.
Local Open Scope string_scope.

'''
if __name__=='__main__':
    parts=[]; names=[]
    # top-level of lib.rs, one definition per module of imp to keep terms small
    out=HEAD
    imp=[x for x in crate if x[0]=='mod' and x[2]=='imp'][0]
    subs=[]
    impitems=imp[3][0][1]
    def sub(l,d):
        global out
        r=[]
        for x in l:
            if x[0]=='mod' :
                n='m_%s'%x[2]
                while n in names: n+='_'
                names.append(n)
                out+='(** %s *)\nDefinition %s : item :=\n%s.\n\n'%(x[-1],n,emit([x],2))
                r.append(('raw',n))
            elif x[0]=='block' and any(y[0]=='mod' for y in x[3]):
                r.append(x)
            else: r.append(x)
        return r
    old=emit
    def emit2(l,ind):
        return ';\n'.join(' '*ind+x[1] if x[0]=='raw' else old([x],ind) for x in l)
    r=sub(impitems,0)
    out+='(** imp/mod.rs *)\nDefinition m_imp : item :=\n  Mod %s "imp" [(All [], [\n%s])].\n\n'%(attrs(imp[1]),emit2(r,4))
    r=[('raw','m_imp') if x is imp else x for x in crate]
    out+='(** lib.rs *)\nDefinition crate : list item := [\n%s].\n'%emit2(r,2)
    open(OUT,'w').write(out)
    print(len(out.splitlines()),len(out))
