# append Print Assumptions for each theorem in Properties files (idempotent)
for f in /verif/rocq/theories/Properties_*.v; do
  python3 - $f <<'P'
import sys,re
p=sys.argv[1]; s=open(p).read()
mark="\n(** ** Assumptions *)\n"
if mark in s: s=s[:s.index(mark)]
names=re.findall(r'^Theorem (\w+)',s,re.M)
s=s.rstrip('\n')+"\n"+mark+"".join(f"Print Assumptions {n}.\n" for n in names)
open(p,'w').write(s)
P
done
