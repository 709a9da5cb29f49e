import json,re,glob,collections
# Collects every Theorem named Cnn_* from Properties*.v; statuses/notes below.
NOTES=json.load(open('/verif/tools/notes.json'))
th=collections.OrderedDict()
for f in sorted(glob.glob('/verif/rocq/theories/Properties*.v')):
    for m in re.finditer(r'^\s*(?:Theorem|Corollary)\s+(C\d\d)(\w*)',open(f).read(),re.M):
        th.setdefault(m.group(1),[]).append(m.group(1)+m.group(2))
claims=[]
for l in open('/verif/properties.jsonl'):
    i=json.loads(l)['id']
    n=NOTES.get(i,{})
    if i in th:
        claims.append(dict(property=i,status=n.get('status','proved'),theorems=th[i],note=n.get('note','')))
    elif n.get('status')=='not_applicable':
        claims.append(dict(property=i,status='not_applicable',theorems=[],note=n['note']))
    else: print('no theorem for',i)
for i in th:
    if i not in [c['property'] for c in claims]: print('theorem without property',i)
json.dump({"claims":claims},open('/verif/MANIFEST.json','w'),indent=1)
