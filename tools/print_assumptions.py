import json,re,glob,os
m=json.load(open('/verif/MANIFEST.json'))
want=[t for c in m['claims'] for t in c['theorems']]
loc={}
for f in glob.glob('/verif/rocq/theories/Props_*.v'):
    for t in re.findall(r'^\s*Theorem\s+([\w\']+)',open(f).read(),re.M): loc[t]=os.path.basename(f)[:-2]
mods=sorted(set(loc[t] for t in want))
out=['From Verif Require '+' '.join(mods)+'.']
for t in want: out.append(f'Print Assumptions {loc[t]}.{t}.')
open('/tmp/PA.v','w').write('\n'.join(out)+'\n'); print(len(want))
