"""Rewrites MANIFEST.json: theorem names are collected from the *_Props.v files
by their Cxx_ prefix; status and notes are given below."""
import json, re, glob, os
root = os.path.dirname(os.path.dirname(os.path.abspath(__file__)))
NOTES = json.load(open(os.path.join(root, 'tools', 'notes.json')))
thms = {}
for f in sorted(glob.glob(os.path.join(root, 'rocq/theories/*_Props.v'))):
    for m in re.finditer(r'^Theorem\s+((C\d\d+)_\w+)', open(f).read(), re.M):
        thms.setdefault(m.group(2), []).append(m.group(1))
claims = []
for line in open(os.path.join(root, 'properties.jsonl')):
    p = json.loads(line)
    i = p['id']
    n = NOTES.get(i)
    if n is None or i not in thms:
        continue
    claims.append({"property": i, "status": n[0], "theorems": thms[i], "note": n[1]})
json.dump({"claims": claims}, open(os.path.join(root, 'MANIFEST.json'), 'w'), indent=1)
print(len(claims), 'claims', sum(len(c['theorems']) for c in claims), 'theorems')
missing = [i for i in thms if i not in NOTES]
print('no note:', missing)
