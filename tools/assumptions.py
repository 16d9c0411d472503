"""Print Assumptions for every theorem in MANIFEST.json; writes ASSUMPTIONS.md (run in /verif after a build).
With file names (no .v) as arguments only those rows are redone."""
import json,subprocess,re,os,sys,collections
m=json.load(open('MANIFEST.json'))
where={}
for f in os.listdir('rocq/theories'):
    if f.endswith('.v'):
        for n in re.findall(r'^\s*(?:Theorem|Lemma|Corollary|Example|Fact)\s+([A-Za-z0-9_\']+)',open('rocq/theories/'+f).read(),re.M): where.setdefault(n,f[:-2])
byfile=collections.defaultdict(list)
for c in m['claims']:
    for t in c['theorems']: byfile[where[t]].append((c['property'],t))
out=[]
if sys.argv[1:]:
    for l in open('ASSUMPTIONS.md'):
        r=[x.strip() for x in l.split('|')]
        if len(r)==6 and r[1][:1]=='C' and r[3].endswith('.v') and r[3][:-2] not in sys.argv[1:]:
            out.append((r[1],r[2],r[3][:-2],[] if r[4]=='-' else r[4].split(', ')))
for f,ts in sorted(byfile.items()):
    if sys.argv[1:] and f not in sys.argv[1:]: continue
    src='From Verif Require %s.\n'%f+''.join('Goal True. idtac "@@%s". Abort.\nPrint Assumptions %s.%s.\n'%(t,f,t) for _,t in ts)
    open('/tmp/w/pa.v','w').write(src)
    r=subprocess.run(['coqc','-Q','rocq/theories','Verif','/tmp/w/pa.v'],capture_output=True,text=True)
    txt=r.stdout
    assert r.returncode==0,(f,r.stderr)
    parts=re.split(r'@@(\S+)\n',txt)
    d=dict(zip(parts[1::2],parts[2::2]))
    for p,t in ts:
        body=d[t]
        ax=[] if 'Closed under the global context' in body else re.findall(r'^([A-Za-z_][\w.\']*)\s*$|^([A-Za-z_][\w.\']*) :',body,re.M)
        ax=sorted({a or b for a,b in ax})
        out.append((p,t,f,ax))
out.sort()
with open('ASSUMPTIONS.md','w') as g:
    g.write('# Print Assumptions for the theorems of MANIFEST.json\n\nGenerated by tools/assumptions.py. "-" means closed under the global context.\n\n| property | theorem | file | assumptions |\n|---|---|---|---|\n')
    for p,t,f,ax in out: g.write('| %s | %s | %s.v | %s |\n'%(p,t,f,', '.join(ax) or '-'))
