import json,re,glob,os
# status table: property -> (status, note); theorems are collected by prefix from Prop_*.v
exec(open('/verif/tools/manifest_notes.py').read()) if os.path.exists('/verif/tools/manifest_notes.py') else None
thms={}
for f in sorted(glob.glob('/verif/rocq/theories/Prop_*.v')):
    for m in re.finditer(r'^Theorem\s+(C\d\d)_(\w+)',open(f).read(),re.M):
        thms.setdefault(m.group(1),[]).append(m.group(1)+'_'+m.group(2))
claims=[]
for p,(st,note) in sorted(NOTES.items()):
    claims.append(dict(property=p,status=st,theorems=thms.get(p,[]),note=note))
for p in thms:
    if p not in NOTES: print("no note for",p)
for p in NOTES:
    if p not in thms and NOTES[p][0]!='not_applicable': print("no theorems for",p)
json.dump(dict(claims=claims),open('/verif/MANIFEST.json','w'),indent=1)
print(len(claims),'claims',sum(len(v) for v in thms.values()),'theorems')
