#!/usr/bin/env python3
"""usage: log_muts.py out.jsonl [tightened.json]  : append the results of mutate.py to seeded/LOG.jsonl.
tightened.json maps a claim to the list of theorems that were added or strengthened because of it."""
import sys,json
t=json.load(open(sys.argv[2])) if len(sys.argv)>2 else {}
with open('/verif/seeded/LOG.jsonl','a') as f:
    for l in open(sys.argv[1]):
        d=json.loads(l)
        f.write(json.dumps({"definition":d["file"]+": "+d["definition"],"edit":d["edit"],"claim":d["claim"],"failed":d["failed"],"tightened":t.get(d["claim"],[])})+"\n")
