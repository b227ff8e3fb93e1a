"""Many small mechanical edits of the model, to find those that no proof notices.

usage: survey.py SCRATCH prepare | SCRATCH generate | [FILES="Parse Expand"] SCRATCH run [COUNT]

`prepare` builds SCRATCH/base, a copy of rocq/ without Tests*.v and without the Examples of Prop*.v;
`generate` writes SCRATCH/edits.json, in random order;
`run` rebuilds for each until its own file ("ill-typed") or a proof fails ("killed") or everything is built ("SURVIVED")."""
import json, os, random, re, shutil, subprocess, sys
from concurrent.futures import ThreadPoolExecutor
scratch = sys.argv[1]; base = f"{scratch}/base"
MODEL = "Base Span Nom Ast Combinator Parse Iter Expand Regex Hir Match Captures Steps Generic Lazy LazySteps Messages Params Escaped Nest Equal Compiled Automaton Source Limit Debug Lines Asked".split()

def prepare():
    root = os.path.dirname(os.path.dirname(os.path.abspath(__file__)))
    shutil.rmtree(base, ignore_errors=True); os.makedirs(f"{base}/theories")
    lines = [l for l in open(f"{root}/rocq/_CoqProject") if "/Tests" not in l]
    open(f"{base}/_CoqProject", "w").writelines(lines)
    for l in lines:
        l = l.strip()
        if not l.endswith(".v"): continue
        t = open(f"{root}/rocq/{l}").read()
        if "/Prop" in l: t = re.sub(r"^Example (\w+)\b.*?^(Proof\..*?)?\bQed\.", lambda e: e[0] if len(re.findall(rf"\b{e[1]}\b", t)) > 1 else "", t, flags=re.M | re.S)
        open(f"{base}/{l}", "w").write(t)
    subprocess.run("coq_makefile -f _CoqProject -o Makefile && make -j3 > build.log 2>&1", shell=True, cwd=base, check=True)

def blank(t):
    """Comments replaced by blanks of the same length."""
    out = []; d = 0; i = 0; s = False
    while i < len(t):
        if not s and t.startswith("(*", i): d += 1; out.append("  "); i += 2; continue
        if not s and d and t.startswith("*)", i): d -= 1; out.append("  "); i += 2; continue
        c = t[i]
        if not d and c == '"': s = not s
        out.append(c if not d or c == "\n" else " "); i += 1
    return "".join(out)

def families():
    fam = {}
    for m in MODEL:
        t = blank(open(f"{base}/theories/{m}.v").read())
        for b in re.findall(r"^Inductive[^:]*(?::[^=]*)?:=(.*?)\.\s", t, re.M | re.S):
            cs = {}
            for c in b.split("|"):
                c = c.strip()
                if not c: continue
                n, _, a = c.partition(" ")
                cs.setdefault(re.sub(r"\(?[\w' ]+:", "(_:", a), []).append(n)
            for g in cs.values():
                for i, n in enumerate(g):
                    if len(g) > 1: fam[n] = [g[(i + 1) % len(g)]]
    return fam

def edits():
    fam = families(); out = []
    for m in MODEL:
        raw = open(f"{base}/theories/{m}.v").read(); t = blank(raw)
        for sm in re.finditer(r"^\s*(Definition|Fixpoint)\s+(\w+)(.*?)\.(?=\s)", t, re.M | re.S):
            name = sm[2]; a, b = sm.start(3), sm.end(3); body = t[a:b]
            k = body.find(":=")
            if k < 0: continue
            strings = [(x.start(), x.end()) for x in re.finditer(r'"(?:[^"]|"")*"', body)]
            instr = lambda i: any(x <= i < y for x, y in strings)
            def add(i, j, new, op): out.append(dict(file=m, definition=name, start=a + i, end=a + j, old=raw[a+i:a+j], new=new, op=op))
            for x in re.finditer(r"\b(true|false)\b", body):
                if x.start() > k and not instr(x.start()): add(x.start(), x.end(), "false" if x[0] == "true" else "true", "boolean")
            for o, ns in {"<?": ["<=?"], "<=?": ["<?"], "=?": ["<=?"], "&&": ["||"], "||": ["&&"], " + ": [" - "], " - ": [" + "]}.items():
                for x in re.finditer(re.escape(o), body):
                    if x.start() < k or instr(x.start()): continue
                    if o == "=?" and body[x.start()-1] in "<": continue
                    if o == "<?" and False: continue
                    for n in ns: add(x.start(), x.end(), n, "operator")
            for x in re.finditer(r"(?<![\w'.%])\d+(?![\w'.])", body):
                if x.start() < k or instr(x.start()): continue
                v = int(x[0]); add(x.start(), x.end(), str(v + 1), "number")
                if v: add(x.start(), x.end(), str(v - 1), "number")
            for x in re.finditer(r"\bif\b", body):
                if instr(x.start()): continue
                d = 0
                for y in re.finditer(r"\b(if|then)\b", body[x.end():]):
                    if instr(x.end() + y.start()): continue
                    d += 1 if y[0] == "if" else -1
                    if d < 0:
                        c = raw[a + x.end(): a + x.end() + y.start()].strip()
                        for n in (f" negb ({c}) ", " true ", " false "): add(x.end(), x.end() + y.start(), n, "condition")
                        break
            for x in re.finditer(r"\b[A-Z][\w']*\b", body):
                if x.start() > k and not instr(x.start()) and x[0] in fam:
                    for n in fam[x[0]]: add(x.start(), x.end(), n, "constructor")
            for x, y in strings:
                if x > k and y - x > 3:
                    add(x, y, raw[a+x:a+y-2] + '"', "string"); add(x, y, '"' + raw[a+x+2:a+y], "string")
                elif x > k: add(x, y, '"@"' if raw[a+x:a+y] != '"@"' else '"#"', "string")
            ids = re.findall(r"(?<![\w'.])[a-z][\w']*(?![\w'.])", body)
            kw = set("match with end fun let in if then else forall exists fix struct as return list nat option bool string unit parser span str char".split())
            glob = set(re.findall(r"^\s*(?:Definition|Fixpoint|Inductive|Record)\s+(\w+)", t, re.M))
            binders = set(re.findall(r"(?:fun|let|\(|=>|,|::|Some|\||[A-Z]\w*) *'?\(?([a-z][\w']*)", body)) - kw - glob
            loc = [i for i in dict.fromkeys(ids) if i in binders]
            for x in re.finditer(r"(?<![\w'.])[a-z][\w']*(?![\w'.])", body):
                if x.start() < k or instr(x.start()) or x[0] not in loc: continue
                for n in loc:
                    if n != x[0]: add(x.start(), x.end(), n, "variable")
    return out

def apply(e, work):
    p = f"{work}/theories/{e['file']}.v"; t = open(p).read()
    assert t[e["start"]:e["end"]] == e["old"]
    open(p, "w").write(t[:e["start"]] + e["new"] + t[e["end"]:])

def generate():
    es = edits(); random.seed(1); random.shuffle(es)
    byop = {}
    for e in es: byop.setdefault(e["op"], []).append(e)
    print({k: len(v) for k, v in byop.items()}, flush=True)
    cap = int(os.environ.get("VARIABLES", "600"))
    es = [e for k, v in byop.items() for e in (v if k != "variable" else v[:cap])]; random.shuffle(es)
    for i, e in enumerate(es): e["id"] = f"S{i+1:03}"
    json.dump(es, open(f"{scratch}/edits.json", "w"), indent=0)

def run1(e):
    res = f"{scratch}/results/{e['id']}.json"
    if os.path.exists(res): return
    work = f"{scratch}/w_{e['id']}"; shutil.rmtree(work, ignore_errors=True)
    subprocess.run(["cp", "-a", base, work], check=True)
    apply(e, work)
    try:
        r = subprocess.run(["make"], cwd=work, capture_output=True, text=True, timeout=2400)
        err = r.stderr
        if r.returncode == 0: st = "SURVIVED"; where = ""
        else:
            st = "killed"; x = re.search(r'File "\./theories/(\w+)\.v", line (\d+)', err)
            where = err[-200:]
            if x:
                t = open(f"{work}/theories/{x[1]}.v").read().split("\n")[:int(x[2])]
                names = re.findall(r"(?:Lemma|Theorem|Example|Definition|Fixpoint|Fact|Corollary)\s+(\w+)", "\n".join(t))
                if x[1] == e["file"]: st = "ill-typed"
                where = f"{x[1]}.{names[-1] if names else '?'}"
    except subprocess.TimeoutExpired: st = "timeout"; where = ""
    shutil.rmtree(work, ignore_errors=True)
    json.dump(dict(e, status=st, where=where), open(res, "w"))
    if st != "ill-typed": print(e["id"], st, where, e["file"], e["definition"], e["op"], repr(e["old"]), "->", repr(e["new"]), flush=True)

if sys.argv[2] == "prepare": prepare()
elif sys.argv[2] == "generate": generate()
elif sys.argv[2] == "run":
    es = json.load(open(f"{scratch}/edits.json"))[: int(sys.argv[3]) if len(sys.argv) > 3 else None]
    if os.environ.get("FILES"): es = [e for e in es if e["file"] in os.environ["FILES"].split()]
    os.makedirs(f"{scratch}/results", exist_ok=True)
    with ThreadPoolExecutor(int(os.environ.get("JOBS", "3"))) as ex: list(ex.map(run1, es))
