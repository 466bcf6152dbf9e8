#!/usr/bin/env python3
"""Rewrites the Findings section of DESIGN.md from the comments before the _refuted theorems."""
import re,glob
items=[]
for f in sorted(glob.glob('/verif/rocq/theories/Properties_*.v')):
    s=open(f).read()
    for m in re.finditer(r'^Theorem (C\d+\w*_refuted)',s,re.M):
        before=s[:m.start()].rstrip()
        c=''
        i=before.rindex('(**'); c=before[i+3:before.index('*)',i)]
        c=' '.join(c.split()); c=re.sub(r'^(Findings?|refuted): ?','',c)
        items.append((m.group(1),f.split('/')[-1],c or 'see the statement'))
items.sort()
d=open('/verif/DESIGN.md').read()
i=d.index('## Findings')
out="## Findings (theorems named `_refuted`)\n\nEach is a statement that a reader of the documentation would expect to be false, or the negation of the full\nproperty, proved of the model (list regenerated by tools/findings.py).\n\n"
out=out.replace("would expect to be false, or","would not expect: ")
out=out.replace("not expect:  the negation","not expect: the negation")
for n,f,c in items: out+=f"- `{n}` ({f}): {c}\n"
open('/verif/DESIGN.md','w').write(d[:i]+out)
print(len(items))
