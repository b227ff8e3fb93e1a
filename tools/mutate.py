"""Runs the theorems against wrong programs.

usage: mutate.py MUTANTS.json SCRATCH [ID...]

SCRATCH/base must hold a built copy of rocq/. For each mutant the copy is edited and rebuilt; a proof that no longer
goes through is replaced by Admitted (in the scratch copy only) and the build goes on, so that in the end
Print Assumptions tells which property theorems depend on a broken proof. Results go to SCRATCH/results/ID.json."""
import json, os, re, shutil, subprocess, sys
from concurrent.futures import ThreadPoolExecutor
muts = json.load(open(sys.argv[1])); scratch = sys.argv[2]; only = set(sys.argv[3:])
base = f"{scratch}/base"
files = [l.strip() for l in open(f"{base}/_CoqProject") if l.strip().endswith(".v") and "/Tests" not in l]
mods = [os.path.basename(f)[:-2] for f in files]
src = {m: open(f"{base}/theories/{m}.v").read() for m in mods}
deps = {m: [d for l in re.findall(r"From Verif Require (?:Export |Import )?([\w\s]+)\.", src[m]) for d in l.split()] for m in mods}
# in the order of their dependencies
done = []
def visit(m):
    if m in done or m not in src: return
    for d in deps[m]: visit(d)
    done.append(m)
for m in list(mods): visit(m)
mods = done
props = [m for m in mods if m.startswith("Prop")]
theorems = [t for m in props for t in re.findall(r"^Theorem\s+(\w+)", src[m], re.M)]
START = re.compile(r"^[ \t]*(?:Local |Global )?(Lemma|Theorem|Example|Fact|Corollary|Definition|Fixpoint|Instance|Remark)\s+(\w+)", re.M)
ENV = dict(os.environ)

def coqc(work, m):
    log = f"{work}/{m}.time"
    with open(log, "w") as f:
        try:
            p = subprocess.run(["coqc", "-time", "-Q", ".", "Verif", f"{m}.v"], cwd=f"{work}/theories", stdout=f, stderr=subprocess.PIPE, timeout=400, text=True)
            if p.returncode == 0: return None
            e = re.search(r'File "[^"]*", line (\d+), characters (\d+)-', p.stderr)
            text = open(f"{work}/theories/{m}.v").read()
            if not e: raise subprocess.TimeoutExpired("coqc", 0)
            lines = text.encode().split(b"\n")
            return (sum(len(l) + 1 for l in lines[:int(e[1]) - 1]) + int(e[2]), p.stderr[-300:])
        except subprocess.TimeoutExpired:
            pass
    ends = [int(b) for b in re.findall(r"^Chars \d+ - (\d+)", open(log).read(), re.M)]
    return (ends[-1] + 2 if ends else 0, "timeout")

def admit(work, m, off):
    p = f"{work}/theories/{m}.v"
    data = open(p).read()
    starts = [s for s in START.finditer(data) if len(data[:s.start()].encode()) <= off]
    for s in reversed(starts):
        pr = re.compile(r"\bProof\b[^.]*\.|\bProof using[^.]*\.").search(data, s.end())
        end = re.compile(r"\b(Qed|Defined|Admitted|Abort)\.").search(data, s.end())
        if not pr or not end: continue
        nxt = START.search(data, s.end())
        if nxt and nxt.start() < pr.start(): return None if s is starts[-1] else None
        if end[1] == "Admitted": return None
        data = data[:pr.start()] + "Admitted." + data[end.end():]
        open(p, "w").write(data)
        return s[2]
    return None

def run(mu):
    work = f"{scratch}/work_{mu['id']}"
    shutil.rmtree(work, ignore_errors=True); shutil.copytree(base, work)
    edits = mu["edits"] if "edits" in mu else [[mu["file"], mu["old"], mu["new"]]]
    dirty = set(); broken = []; examples = []
    out = {"id": mu["id"]}
    for f, o, n in edits:
        p = f"{work}/theories/{f}.v"; t = open(p).read()
        if t.count(o) != 1:
            out["error"] = f"edit matches {t.count(o)} times in {f}"; return out
        open(p, "w").write(t.replace(o, n)); dirty.add(f)
    for m in mods:
        if m not in dirty and not any(d in dirty for d in deps[m]): continue
        dirty.add(m)
        while True:
            e = coqc(work, m)
            if e is None: break
            name = admit(work, m, e[0])
            if name is None:
                out["error"] = f"{m}: {e}"; shutil.rmtree(work); return out
            broken.append(f"{m}.{name}: {e[1][-160:]}" if os.environ.get("VERBOSE") else f"{m}.{name}")
    ass = "".join(f"From Verif Require Import {m}.\n" for m in props) + "".join(f"Redirect \"{work}/{t}.ass\" Print Assumptions {t}.\n" for t in theorems)
    open(f"{work}/theories/Ass.v", "w").write(ass)
    subprocess.run(["coqc", "-Q", ".", "Verif", "Ass.v"], cwd=f"{work}/theories", check=True, capture_output=True)
    failed = []
    for t in theorems:
        a = open(f"{work}/{t}.ass.out").read()
        if "Closed under the global context" not in a: failed.append(t)
    out.update(broken=broken, failed=failed)
    shutil.rmtree(work)
    return out

todo = [m for m in muts if not only or m["id"] in only]
os.makedirs(f"{scratch}/results", exist_ok=True)
def job(m):
    try: r = run(m)
    except Exception as e: r = {"id": m["id"], "error": repr(e)}
    json.dump(r, open(f"{scratch}/results/{m['id']}.json", "w"), indent=1)
    print(m["id"], r.get("error") or f"broken {len(r['broken'])}, failed {r['failed']}", flush=True)
with ThreadPoolExecutor(int(os.environ.get("JOBS", "4"))) as ex: list(ex.map(job, todo))
