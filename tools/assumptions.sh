#!/bin/bash
# prints the assumptions of every theorem of MANIFEST.json (needs a built tree)
cd "$(dirname "$0")/../rocq"
python3 - <<'P' > /tmp/assumptions.v
import re,glob,os
mods=[l.strip() for l in open('_CoqProject') if l.strip().endswith('.v') and 'Props' in l]
names=[(os.path.basename(m)[:-2],x) for m in mods for x in re.findall(r'^\s*Theorem\s+(C\d+_\w+)',open(m).read(),re.M)]
print('From Verif Require '+' '.join(sorted({m for m,_ in names}))+'.')
for m,x in names: print(f'Print Assumptions Verif.{m}.{x}.')
P
coqc -Q theories Verif /tmp/assumptions.v | sort | uniq -c
