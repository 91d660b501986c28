#!/usr/bin/env python3
"""seedlog.py RESULTS.jsonl : append the results of tools/mutate.py to seeded/LOG.jsonl (one line per mutant)."""
import json,sys
out=open('/verif/seeded/LOG.jsonl','a')
for line in open(sys.argv[1]):
    r=json.loads(line)
    if r.get('error'): continue
    out.write(json.dumps({
        "definition": r['def'] if '.' in r['def'] else f"{r['file']}.{r['def']}",
        "edit": f"`{r['old'].strip()}`  ->  `{r['new'].strip()}`",
        "claim": r['claim'],
        "outcome": "survived" if r['survived'] else "rejected",
        "theorems_failed": r['failed'],
        "property_files_no_longer_built": r.get('unbuilt_props',[]),
        "theorems_tightened": r.get('tightened',[])})+"\n")
