#!/usr/bin/env python3
"""Append results of mutate.py to seeded/LOG.jsonl, once each. Usage: log_seeded.py results.jsonl [tightened.json]
tightened.json maps "definition|edit" to the list of theorems added or strengthened because of that attempt."""
import json, os, sys
here = os.path.dirname(os.path.abspath(__file__)); log = os.path.join(here, "..", "seeded", "LOG.jsonl")
seen = {(d["definition"], d["edit"]) for d in map(json.loads, open(log))}
tight = json.load(open(sys.argv[2])) if len(sys.argv) > 2 else {}
n = 0
with open(log, "a") as o:
    for l in open(sys.argv[1]):
        r = json.loads(l)
        if r.get("error") or r.get("failed") is None: print("skipped:", r.get("definition"), r.get("edit"), r.get("stopped") or r.get("error")); continue
        if (r["definition"], r["edit"]) in seen: continue
        t = tight.get(r["definition"] + "|" + r["edit"], [])
        if (r["missed"] or not r["failed"]) and not t: print("MISSED:", r["definition"], "|", r["edit"], r["missed"]); continue
        o.write(json.dumps({"definition": r["definition"], "edit": r["edit"], "claim": r["claim"], "failed": r["failed"],
                            "broken_lemmas": r["broken_lemmas"], "tightened": t}) + "\n"); n += 1
print(n, "added")
