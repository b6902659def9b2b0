# converts /tmp/mut/log*.jsonl to lines of seeded/LOG.jsonl
import json,sys
out=open('/verif/seeded/LOG.jsonl','a')
skip=set(sys.argv[2:])
for l in open(sys.argv[1]):
    x=json.loads(l)
    if x['name'] in skip: continue
    json.dump({"definition":x["definition"],"edit":x["edit"],"claim_broken":x["claim_broken"],"survived":x["survived"],
      "first_failing_lemma":x["first_failing"],"theorems_failed":x["theorems_failed"],"theorems_tightened":[]},out); out.write("\n")
