"""Fill in the generated parts of DESIGN.md from status.py, MANIFEST.json and the Props files."""
import json, re, glob, os
root = os.path.dirname(os.path.dirname(os.path.abspath(__file__)))
man = json.load(open(root + '/MANIFEST.json'))['claims']
props = {p['id']: p for p in map(json.loads, open(root + '/properties.jsonl'))}
where = {}
text = {}
for f in sorted(glob.glob(root + '/rocq/theories/*Props.v')):
    s = open(f).read()
    for m in re.finditer(r'^Theorem (C\d+_\w+)', s, re.M):
        where[m.group(1)] = os.path.basename(f)
    text[f] = s
rows = ['| id | property | status | theorems | remarks |', '|---|---|---|---|---|']
for c in man:
    i = c['property']
    fs = sorted({where[t] for t in c['theorems'] if t in where})
    rows.append('| %s | %s | %s | %d in %s | %s |' % (i, props[i]['title'], c['status'], len(c['theorems']), ', '.join(fs), c['note'].replace('|', '/')))
import sys
sys.path.insert(0, root + '/tools')
from findings import FINDINGS
have = {t for t in where if 'refuted' in t}
miss = sorted(have - set(FINDINGS))
gone = sorted(set(FINDINGS) - have)
print('findings without text:', miss, 'stale:', gone)
fr = []
for t in sorted(FINDINGS):
    fr.append('* `%s`: %s' % (t, FINDINGS[t]))
d = open(root + '/DESIGN.md').read()
def put(d, tag, lines):
    a = '<!-- %s -->' % tag; b = '<!-- /%s -->' % tag
    i = d.index(a) + len(a); j = d.index(b)
    return d[:i] + '\n' + '\n'.join(lines) + '\n' + d[j:]
d = put(d, 'results', rows)
d = put(d, 'findings', fr)
open(root + '/DESIGN.md', 'w').write(d)
