#!/usr/bin/env python3
"""Translate the country holiday functions of /repo into Gallina booleans.

Writes rocq/theories/CountryModel.v. Every Rust function `fn f(..) -> bool` in a
country file becomes one definition whose body has the same boolean structure."""
import re, sys, os
SRC='/repo/crates/RustQuant_time/src/countries/'
OUT=os.path.join(os.path.dirname(os.path.abspath(__file__)),'..','rocq','theories','CountryModel.v')
MONTHS='January February March April May June July August September October November December'.split()
DAYS='Monday Tuesday Wednesday Thursday Friday Saturday Sunday'.split()
COUNTRIES='argentina australia austria botswana brazil canada chile china czech_republic denmark finland france germany hong_kong hungary iceland india indonesia italy mexico netherlands new_zealand singapore switzerland united_kingdom united_states'.split()

TOK=re.compile(r'\s*(//[^\n]*|\.\.=|==|!=|>=|<=|&&|\|\||::|[A-Za-z_]\w*!?|\d+|[()\[\]{},;.&|!<>%+\-=_])')
def tokens(s):
    i=0; out=[]
    while i<len(s):
        m=TOK.match(s,i)
        if not m:
            assert s[i:].strip()=='', s[i:i+40]
            break
        i=m.end(); t=m.group(1)
        if not t.startswith('//'): out.append(t)
    return out

class P:
    def __init__(self,toks,prefix,env,local): self.t=toks; self.i=0; self.prefix=prefix; self.env=env; self.local=local
    def pk(self,k=0): return self.t[self.i+k] if self.i+k<len(self.t) else None
    def nx(self): self.i+=1; return self.t[self.i-1]
    def ex(self,x): assert self.pk()==x,(x,self.t[self.i-3:self.i+5]); self.i+=1
    def orr(self,top=False):
        a=[self.andd()]
        while self.pk()=='||': self.nx(); a.append(self.andd())
        if len(a)>1 and top: return '\n  || '.join(a)
        return a[0] if len(a)==1 else '('+' || '.join(a)+')'
    def andd(self):
        a=[self.cmp()]
        while self.pk()=='&&': self.nx(); a.append(self.cmp())
        return a[0] if len(a)==1 else '('+' && '.join(a)+')'
    def cmp(self):
        a=self.add()
        o=self.pk()
        if o in('==','!=','>=','<=','<','>'):
            self.nx(); b=self.add()
            return {'==':'(%s =? %s)','!=':'negb (%s =? %s)','<=':'(%s <=? %s)','<':'(%s <? %s)'}.get(o,None)%(a,b) if o in('==','!=','<=','<') else \
                   ('(%s <=? %s)' if o=='>=' else '(%s <? %s)')%(b,a)
        return a
    def add(self):
        a=self.mul()
        while self.pk() in('+','-'):
            o=self.nx(); a='(%s %s %s)'%(a,o,self.mul())
        return a
    def mul(self):
        a=self.atom()
        while self.pk()=='%': self.nx(); a='(Z.rem %s %s)'%(a,self.atom())
        return a
    def const(self):
        t=self.nx()
        if t in('Month','Weekday'): self.ex('::'); t=self.nx()
        if t in MONTHS: return str(MONTHS.index(t)+1)
        if t in DAYS: return t[:3]
        return t
    def atom(self):
        t=self.pk()
        if t=='(' :
            # range contains?
            if self.pk(2)=='..=':
                self.nx(); lo=self.nx(); self.nx(); hi=self.nx(); self.ex(')'); self.ex('.'); self.ex('contains'); self.ex('('); self.ex('&'); v=self.nx(); self.ex(')')
                v=self.env.get(v,v)
                return '((%s <=? %s) && (%s <=? %s))'%(lo,v,v,hi)
            self.nx(); a=self.orr(); self.ex(')'); return a
        if t=='matches!': return self.matches()
        if t in('Month','Weekday') or t in MONTHS or t in DAYS or re.match(r'\d',t): return self.const()
        self.nx()
        if self.pk()=='(':
            self.nx(); args=[]
            while self.pk()!=')':
                args.append(self.orr())
                if self.pk()==',': self.nx()
            self.nx()
            if t in UTIL and t not in self.local: return UTIL[t]
            return self.local[t]
        if self.pk()=='.' and self.pk(1)=='number_from_monday':
            self.nx();self.nx();self.ex('(');self.ex(')'); return '(%s + 1)'%self.env.get(t,t)
        return self.env.get(t,t)
    def matches(self):
        self.nx(); self.ex('('); self.ex('(')
        vs=[self.env.get(self.nx())]
        while self.pk()==',': self.nx(); vs.append(self.env.get(self.nx()))
        self.ex(')'); self.ex(',')
        pats=[]
        while True:
            if self.pk()=='|': self.nx()
            if self.pk()==')': self.nx(); break
            self.ex('(')
            comps=[]
            for k,v in enumerate(vs):
                alts=[]
                while True:
                    a=self.const()
                    if self.pk()=='..=': self.nx(); b=self.const(); alts.append('((%s <=? %s) && (%s <=? %s))'%(a,v,v,b))
                    else: alts.append('(%s =? %s)'%(v,a))
                    if self.pk()=='|': self.nx(); continue
                    break
                comps.append(alts[0] if len(alts)==1 else '('+' || '.join(alts)+')')
                if self.pk()==',': self.nx()
            self.ex(')')
            pats.append('('+' && '.join(comps)+')')
            if self.pk()==',': self.nx()
        return '('+'\n   || '.join(pats)+')'

UTIL={'is_christmas_day':'((m =? 12) && (d =? 25))','is_christmas_eve':'((m =? 12) && (d =? 24))',
      'is_new_years_eve':'(((d =? 31) || ((d =? 30) && (wd =? Fri))) && (m =? 12))'}
SIG='(y m d wd yd em : Z)'; ARGS='y m d wd yd em'
def wrap(s,w=110):
    out=[];
    for line in s.split('\n'):
        while len(line)>w:
            k=max(line.rfind(' || ',0,w),line.rfind(' && ',0,w))
            if k<=8: break
            out.append(line[:k]); line='   '+line[k:]
        out.append(line)
    return '\n'.join(out)
def bal(x):
    k=0
    for ch in x:
        k+={'(':1,')':-1}.get(ch,0)
        if k<0: return False
    return k==0
def main():
    o=[]
    for c in COUNTRIES:
        txt=open(SRC+c+'.rs').read(); cut=txt.find('#[cfg(test)]'); txt=txt if cut<0 else txt[:cut]
        fns=[]
        for mt in re.finditer(r'(pub\(crate\) )?fn (\w+)\(([^)]*)\) -> bool \{',txt):
            i=mt.end(); depth=1
            while depth: depth+= {'{':1,'}':-1}.get(txt[i],0); i+=1
            fns.append((mt.group(2),mt.group(3),txt[mt.end():i-1],txt.count('\n',0,mt.start())+1,txt.count('\n',0,i)+1))
        main_fn=fns[0]; helpers=fns[1:]
        local={n:'%s_%s %s'%(c,re.sub('^is_','',n),ARGS) for n,_,_,_,_ in helpers}
        local={k:'('+v+')' for k,v in local.items()}
        o.append('(** ** countries/%s.rs *)'%c)
        util_ok = 'crate::utilities::*' in txt
        for (n,par,body,l0,l1) in helpers+[main_fn]:
            env={'y':'y','m':'m','d':'d','wd':'wd','yd':'yd','em':'em','w':'wd','year':'y','month':'m','day':'d','date':'date','move_to_friday':'true','_wd':'wd'}
            name='%s_%s'%(c,re.sub('^is_','',n)) if n!=main_fn[0] else c+'_rule'
            body=re.sub(r'//[^\n]*','',body)
            body=re.sub(r'let \([^)]*\) = unpack_date\(date, false\);','',body)
            body=re.sub(r'use Month::[^;]*;','',body)
            if n=='is_kings_day':
                body='m == Month::April && ((d == 27 && wd.number_from_monday() != 7) || (d == 26 && wd.number_from_monday() == 6))'
            b=body.strip()
            mm=re.match(r'if\s(.*)\{\s*return true;\s*\}\s*false$',b,re.S)
            if mm: e=P(tokens(re.sub(r'^\((.*)\)\s*$',lambda q:q.group(1) if bal(q.group(1)) else q.group(0),mm.group(1).strip(),flags=re.S)),c,env,local); r=e.orr(True); assert e.i==len(e.t),e.t[e.i:]
            else:
                mm=re.match(r'if\s(.*?)\{(.*)\} else \{(.*)\}$',b,re.S)
                def ex(s,top=False):
                    e=P(tokens(s),c,env,local); r=e.orr(top); assert e.i==len(e.t),(n,e.t[e.i:]); return r
                if mm: r='if %s\n  then %s\n  else %s'%tuple(ex(x) for x in mm.groups())
                else: r=ex(b,True)
            r=re.sub(r'\((\d+)\)',r'\1',r)
            o.append('(** %d-%d *)\nDefinition %s %s : bool :=\n  %s.'%(l0,l1,name,SIG,wrap(r)))
    con=open('/repo/crates/RustQuant_time/src/constants.rs').read(); con=con[con.index('EASTER_MONDAYS'):]
    rows=re.findall(r'\[\n(\s+\d.*?)\]',con,re.S)
    def row(s):
        s=re.sub(r'//[^\n]*','',s); return [int(x) for x in re.findall(r'\d+',s)]
    W,Or=[row(r) for r in rows]; assert len(W)==len(Or)==299
    def fmt(l): return '\n   '.join('; '.join(map(str,l[i:i+20]))+(';' if i+20<len(l) else '') for i in range(0,len(l),20))
    head=open(os.path.join(os.path.dirname(os.path.abspath(__file__)),'countries_head.txt')).read()
    head=head.replace('@WEST@',fmt(W)).replace('@ORTH@',fmt(Or))
    tail=open(os.path.join(os.path.dirname(os.path.abspath(__file__)),'countries_tail.txt')).read()
    mk=[]
    open(OUT,'w').write(head+'\n'.join(o)+'\n'+tail)
main()
