"""Append the output lines of mutate.py to seeded/LOG.jsonl.

usage: mutlog.py result.jsonl [tightened.json]
tightened.json maps a definition name to the theorems tightened after the attempt.
"""
import json, os, sys

here = os.path.dirname(os.path.abspath(__file__))
tight = json.load(open(sys.argv[2])) if len(sys.argv) > 2 else {}
with open(os.path.join(here, "..", "seeded", "LOG.jsonl"), "a") as out:
    for line in open(sys.argv[1]):
        d = json.loads(line)
        out.write(json.dumps({
            "definition": d["definition"], "edit": d["edit"], "claim": d["claim"],
            "failed": d["failed"], "tightened": tight.get(d["definition"], []),
        }) + "\n")
