"""Print Assumptions of every manifest theorem (run after a build); prints the theorems that are not closed."""
import json,subprocess,glob,re,os
T=sorted({t for c in json.load(open('/verif/MANIFEST.json'))['claims'] for t in c['theorems']})
where={}
for f in glob.glob('/verif/rocq/theories/*Props.v'):
    for m in re.finditer(r'^Theorem (\w+)',open(f).read(),re.M): where[m.group(1)]=os.path.basename(f)[:-2]
mods=sorted({where[t] for t in T})
src='From Verif Require '+' '.join(mods)+'.\n'+''.join(f'Print Assumptions Verif.{where[t]}.{t}.\n' for t in T)
open('/tmp/pa.v','w').write(src)
out=subprocess.run(['coqc','-Q','/verif/rocq/theories','Verif','/tmp/pa.v'],capture_output=True,text=True)
if out.returncode: print(out.stderr)
n=out.stdout.count('Closed under the global context')
print(len(T),'theorems',n,'closed'); rest=out.stdout.replace('Closed under the global context','').strip()
print(rest)
