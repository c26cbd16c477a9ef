"""Writes COVERAGE.md: for each function of /repo/jajapy, the definitions of the
model whose comment cites its lines, or the reason why there is none."""
import re,glob,ast,os
REASON={
 ('BW.py','_h_tau_MDP'):'reader of the current hypothesis; same text as MDP.tau, modelled by mdp_tau',
 ('BW.py','_h_l'):'reader of the current hypothesis; same text as CTMC.l, modelled by ct_l',
 ('BW.py','_h_e'):'reader of the current hypothesis; calls CTMC.e, modelled by ct_e',
 ('BW.py','_computeTaus'):'empty',
 ('Base_MC.py','getAlphabet'):'returns the attribute alphabet (see C140)',
 ('Base_MC.py','toStormpy'):'calls jajapyModeltoStormpy (MStorm.v); RuntimeError without stormpy',
 ('Model.py','rename'):'assigns the name',
 ('Model.py','next'):'abstract',('Model.py','_stateToString'):'abstract',('Model.py','tau'):'abstract',
 ('tools.py','normpdf'):'not called anywhere',
 ('Alergia.py','pprint'):'debugging output',('Alergia.py','_initialize'):'local variables of fit in MAlergia.v',('Alergia.py','__init__'):'empty',
 ('Active_BW_MDP.py','__init__'):'calls the base class',
 ('IOAlergia.py','counterAdd'):'an addition, part of move_counter and of the tree construction in MIOAlergia.v',('IOAlergia.py','setId'):'part of MIOAlergia.v (numbering)',
 ('IOAlergia.py','__str__'):'debugging output',('IOAlergia.py','__init__'):'attributes, fields of the records of MIOAlergia.v',
 ('IOAlergia.py','addInitialState'):'the list of initial states is only used by runSeq',('IOAlergia.py','runSeq'):'not called anywhere',
 ('model_converter.py','loadPrism'):'calls stormpy (not modelled), then stormpyModeltoJajapy',
}
import sys
DEF=re.compile(r'\b(?:Definition|Fixpoint|Record|Inductive|Class|with)\s+([A-Za-z_][\w\']*)')
cites={}
for f in sorted(glob.glob('/verif/rocq/theories/*.v')):
    b=os.path.basename(f)
    if b[0] not in 'MPNS' : continue
    t=open(f).read(); cur=None
    for m in re.finditer(r'\(\*\*?(.*?)\*\)',t,re.S):
        d=DEF.search(t,m.end()); nm=(b[:-2]+'.'+d.group(1)) if d else b
        if b[0]!='M': nm=b
        for a,x,y in re.findall(r'([A-Za-z_/]+\.py)|(?<![\w.])(\d+)(?:-(\d+))?(?![\w.])',m.group(1)):
            if a: cur=os.path.basename(a)
            elif cur:
                x=int(x); y=int(y or x)
                if 0<=y-x<300: cites.setdefault(cur,[]).append((x,y,nm))
out=["# Which functions of jajapy are modelled","",
"Generated by `tools/coverage.py` from the comments of the model: for each function of the library, the definitions whose comment cites some of its lines. A function without definition has a reason instead. Tests, examples and documentation are not listed.",""]
bad=[]
for f in sorted(glob.glob('/repo/jajapy/**/*.py',recursive=True)):
    if 'test' in f: continue
    tree=ast.parse(open(f).read()); rows=[]
    b=os.path.basename(f)
    def visit(n,pre):
        for c in ast.iter_child_nodes(n):
            if isinstance(c,ast.ClassDef): visit(c,c.name+'.')
            elif isinstance(c,ast.FunctionDef):
                body=[x.lineno for x in ast.walk(c) if isinstance(x,ast.stmt)]
                lo=c.lineno; hi=c.end_lineno
                ds=[]
                for x,y,nm in cites.get(b,[]):
                    if x<=hi and y>=lo and nm not in ds: ds.append(nm)
                r=REASON.get((b,c.name))
                if len(ds)>6: ds=ds[:6]+['...']
                txt=', '.join('`%s`'%d if d!='...' else d for d in ds)
                if not ds or (r and c.name not in('__init__',)): txt=(txt+'; ' if ds else '')+('not modelled: ' if not ds else '')+(r or '?')
                if not ds and not r: bad.append((b,c.name,lo))
                rows.append('| `%s%s` | %d-%d | %s |'%(pre,c.name,lo,hi,txt))
    visit(tree,'')
    if rows: out+=['## '+f[len('/repo/'):],'','| function | lines | modelled by |','|---|---|---|']+rows+['']
open('/verif/COVERAGE.md','w').write('\n'.join(out))
print(len(out),bad)
