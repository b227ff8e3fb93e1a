"""Appends to seeded/LOG.jsonl the results of tools/mutate.py that it does not have yet.

usage: mklog.py SCRATCH FIRST LAST [ID=theorem,theorem...]   (the theorems tightened after a mutant)"""
import json, sys
scratch, a, b = sys.argv[1], int(sys.argv[2]), int(sys.argv[3])
tight = dict(x.split("=") for x in sys.argv[4:])
ms = {m["id"]: m for m in json.load(open("seeded/mutants.json"))}
have = {json.loads(l)["id"] for l in open("seeded/LOG.jsonl")}
with open("seeded/LOG.jsonl", "a") as f:
    for i in range(a, b + 1):
        k = f"M{i}"
        if k in have: continue
        r = json.load(open(f"{scratch}/results/{k}.json")); m = ms[k]
        if "error" in r: print(k, r["error"]); continue
        f.write(json.dumps(dict(id=k, definition=f"{m['file']}.{m['definition']}", edit=m["edit"], claim_broken=m["claim"],
            theorems_failed=r["failed"], broken_lemmas=r["broken"],
            theorems_tightened=tight[k].split(",") if k in tight else []), ensure_ascii=False) + "\n")
