#!/usr/bin/env python3
"""Add or replace one claim in MANIFEST.json.
usage: claim.py ID status "thm1 thm2 ..." "note" """
import json, os, sys
p = os.path.join(os.path.dirname(os.path.abspath(__file__)), '..', 'MANIFEST.json')
m = json.load(open(p)) if os.path.exists(p) else {"claims": []}
i, st, th, note = sys.argv[1:5]
m["claims"] = [c for c in m["claims"] if c["property"] != i]
m["claims"].append({"property": i, "status": st, "theorems": th.split(), "note": note})
m["claims"].sort(key=lambda c: int(c["property"][1:]))
json.dump(m, open(p, 'w'), indent=1)
open(p, 'a').write('\n')
