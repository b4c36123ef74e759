# Usage: mkdir -p /tmp/oracle; python3 gen.py 120 0 20; sh run.sh; python3 show.py /tmp/oracle/o0.out (and o1, o2), after building /verif/rocq
import os,glob,sys
R='/repo/test/'
LIM=int(sys.argv[1]) if len(sys.argv)>1 else 300
LOW=int(sys.argv[2]) if len(sys.argv)>2 else 0
T=[]
def rd(*fs): return ''.join(open(f,encoding='latin-1',newline='').read() for f in fs)
def add(name,args,inp,exp,code=0): T.append((name,args.split(),inp,exp,code))
for d in ['commonIdeals','specialIdeals','frob','bigIdeals','intersect','irrdecom']:
  for f in sorted(glob.glob(R+d+'/*test')):
    if not f.endswith('test') or os.path.isdir(f) or not '.' in os.path.basename(f): continue
    b=f.rsplit('.',1)[0]; inp=rd(f); n=d+'/'+os.path.basename(b)
    if not (LOW < len(inp)<=LIM): continue
    def e(ext,args,i=None):
      if os.path.exists(b+'.'+ext): add(n+'.'+ext+' ['+args+']',args,inp if i is None else i,rd(b+'.'+ext))
    ap=b+'.alexdual_point'
    e('alexdual','alexdual -canon',inp+(rd(ap) if os.path.exists(ap) else ''))
    e('assoprimes','assoprimes -canon')
    e('dim','dimension'); e('dim','dimension -useSlice')
    e('intersection','intersection -canon')
    e('irrdecom','irrdecom -encode '+('on' if d=='irrdecom' else 'off')+' -canon'); e('irrdecom_ideal','irrdecom -encode on -canon')
    e('maxstandard','maxstandard -canon'); e('minimize','transform -canon -minimize'); e('radical','transform -canon -radical -minimize')
    e('primdecom','primdecom -canon')
    for alg in ['slice','bigatti','deform']:
      e('multi','hilbert -univariate off -canon -oformat m2 -algorithm '+alg); e('uni','hilbert -univariate -canon -oformat m2 -algorithm '+alg)
    ov=b+'.optVector'; oi=inp+(rd(ov) if os.path.exists(ov) else '')
    e('opt_irr','optimize -canon -displayLevel 2',oi); e('opt_std','optimize -canon -displayLevel 2 -maxStandard',oi)
    e('opt_irr_min','optimize -canon -displayLevel 2 -minValue',oi); e('opt_std_min','optimize -canon -displayLevel 2 -maxStandard -minValue',oi)
    fi=b+'.frobInstance'
    if os.path.exists(fi):
      e('frobNumber','optimize -maxStandard -displayLevel 0 -chopFirstAndSubtract',inp+rd(fi)); e('frobNumber','frobgrob',inp+rd(fi))
for d,act,fm in [('idealFormats','transform','m2 4ti2 monos newmonos singular cocoa4'),('polyFormats','ptransform','m2 cocoa4 4ti2 singular')]:
  for f in sorted(glob.glob(R+d+'/*.test')):
    b=f[:-5]; n=d+'/'+os.path.basename(b)
    if n.endswith('null'): continue
    inp=rd(f)
    if not (LOW < len(inp)<=LIM): continue
    for x in fm.split():
      add(n+'.'+x,act+' -oformat '+x,inp,rd(b+'.'+x)); add(n+'.'+x+' self',act,rd(b+'.'+x),rd(b+'.'+x))
      add(n+'.'+x+' selfio',act+' -iformat '+x+' -oformat '+x,rd(b+'.'+x),rd(b+'.'+x))
    add(n+'.canon',act+' -canon',inp,rd(b+'.canon'))
for f in sorted(glob.glob(R+'latticeFormats/*.4ti2')):
  b=f[:-5]; n='lattice/'+os.path.basename(b)
  if LOW<len(rd(f))<=LIM:
    add(n+' 4f','latformat -iformat 4ti2 -oformat fplll',rd(f),rd(b+'.fplll')); add(n+' f4','latformat -iformat fplll -oformat 4ti2',rd(b+'.fplll'),rd(f))
if LOW==0:
  import re,shlex
  s=open(R+'messages/runtests').read().replace('\\\n',' ')
  N="There is no input for this computation."
  for l in s.split('\n'):
    if l.startswith('$t ') and not l.startswith('$t help'):
      l=l.split(' #')[0]
      w=shlex.split(l.replace('$noInput',N))
      act,inp,name=w[1],w[2],w[3]; ps=[x for x in w[4:] if x!='$*']
      T.append(('messages/'+name,[act]+ps,inp,None,1))
def q(s): return '($"'+s.replace('"','""')+'")'
import json
json.dump([t[0] for t in T],open('/tmp/oracle/names.json','w'))
K=3
hdr=r'''Set Printing Width 100000. Set Printing Depth 100000.
From Coq Require Import String Ascii. From Coq Require Import List Arith Bool ZArith. Import ListNotations.
From Verif Require Import M_IO M_Cli M_Main M_Cli3 T_Main.
Local Notation "$ s" := (list_ascii_of_string s%string) (at level 0, s at level 0, only parsing).
Definition big_world := World (w_max some_world) (w_max_int some_world) (w_word some_world) (w_rand some_world) (w_rands some_world) (w_tries some_world) (Machine (fun k => k) (fun _ l => l) (fun _ l => l) (fun _ l => l) (fun _ l => l) (Nat.pow 10 6)).
Definition eqs (a b : list ascii) := String.eqb (string_of_list_ascii a) (string_of_list_ascii b).
Definition chk (n : nat) (r : res text) (e : option (list ascii)) :=
  match r, e with
  | Ok t, Some x => if eqs t x then (n, "same"%string, ""%string) else (n, "DIFF"%string, string_of_list_ascii t)
  | Ok t, None => (n, "NOERR"%string, string_of_list_ascii t)
  | SyntaxError, None => (n, "syntaxerr"%string, ""%string) | OtherError, None => (n, "othererr"%string, ""%string) | InvalidArgument, None => (n, "invarg"%string, ""%string)
  | SyntaxError, Some _ => (n, "SYNTAX"%string, ""%string) | OtherError, Some _ => (n, "OTHER"%string, ""%string) | InvalidArgument, Some _ => (n, "INVALID"%string, ""%string)
  | OutOfFuel, _ => (n, "FUEL"%string, ""%string) | Undefined, _ => (n, "UNDEF"%string, ""%string) end.
'''
TO=int(sys.argv[3]) if len(sys.argv)>3 else 20
for k in range(K):
  with open('/tmp/oracle/o%d.v'%k,'w',encoding='latin-1') as o:
    o.write(hdr)
    for i,t in enumerate(T):
      if i%K==k:
        o.write('Timeout %d Eval vm_compute in (chk %d (frobby big_world [%s] %s) %s).\n'%(TO,i,';'.join(q(a) for a in t[1]),q(t[2]),'None' if t[3] is None else '(Some %s)'%q(t[3])))
print(len(T))
