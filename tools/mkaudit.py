"""Generate rocq/theories/Audit.v: Print Assumptions of every theorem of the manifest."""
import json,re,glob,os
T=[]
for c in json.load(open('/verif/MANIFEST.json'))["claims"]:
    for t in c["theorems"]:
        if t not in T: T.append(t)
where={}
for f in sorted(glob.glob('/verif/rocq/theories/*.v')):
    s=open(f).read()
    for t in T:
        if re.search(r'(Theorem|Lemma|Corollary)\s+'+t+r'\b',s): where[t]=os.path.basename(f)[:-2]
ms=sorted(set(where.values()))
o="(** Generated by tools/mkaudit.py: the assumptions of every theorem named in MANIFEST.json. *)\nFrom Verif Require "+" ".join(ms)+".\n"
o+="(** One tuple of all of them, so that the traversal of the proofs is shared. *)\nDefinition all_theorems :=\n  ("+",\n   ".join("@%s.%s"%(where[t],t) for t in T)+").\nPrint Assumptions all_theorems.\n"
open('/verif/rocq/theories/Audit.v','w').write(o)
