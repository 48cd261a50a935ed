# regenerate MANIFEST from theorem names in Properties_*.v + notes
import re,glob,json,os
notes=json.load(open('/verif/tools/notes.json')) if os.path.exists('/verif/tools/notes.json') else {}
th={}
for f in sorted(glob.glob('/verif/rocq/theories/Properties_*.v')):
    for n in re.findall(r'^Theorem (C\d\d+_\w+)',open(f).read(),re.M):
        th.setdefault(n.split('_')[0],[]).append(n)
props=[json.loads(l)['id'] for l in open('/verif/properties.jsonl')]
claims=[]
for p in props:
    ts=th.get(p,[])
    note=notes.get(p,{})
    st=note.get('status')
    if not st:
        st = 'proved' if ts and not any(t.endswith('_partial') for t in ts) else 'partial'
    if not ts and st!='not_applicable': continue
    claims.append({"property":p,"status":st,"theorems":ts,"note":note.get('note','')})
json.dump({"claims":claims},open('/verif/MANIFEST.json','w'),indent=1)
print([(c['property'],c['status'],len(c['theorems'])) for c in claims])
