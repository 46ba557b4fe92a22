"""Generate small wrong programs: automutate.py SEED COUNT OUT.json

Picks definitions of the model files at random (one edit per definition, definitions without an earlier seeded edit first), applies one
random small edit (comparison, arithmetic operator, constant, boolean, string, projection, argument order) and keeps it when the model
file still typechecks.  The result is run with mutate.py; `claims` is empty, so any failed property theorem counts.
"""
import glob, json, os, random, re, shutil, subprocess, sys
ROOT = os.path.dirname(os.path.dirname(os.path.abspath(__file__)))
base = os.environ.get("MUT_BASE", "/tmp/mutbase")
seed, count, out = int(sys.argv[1]), int(sys.argv[2]), sys.argv[3]
rnd = random.Random(seed)
SWAP = [("nlt", "nle"), ("ngt", "nge"), ("<?", "<=?"), ("Nat.ltb", "Nat.leb"), (" + ", " - "), (" * ", " / "), ("true", "false"), ("fst", "snd"),
        ("&&", "||"), ("andb", "orb"), ("PInf", "NInf"), ("nadd", "nsub"), ("nmul", "ndiv"), ("firstn", "skipn"), ("nmin", "nmax"),
        ("hd", "last"), ("KeyError", "TypeError"), ("ValueError", "TypeError"), ("removelast", "tl"), ("rev", "id"), ("nexp", "nlog"), ("fold_left", "fold_left")]

def blank(s):
    """comments replaced by spaces, same length"""
    o, i, d, q = list(s), 0, 0, False
    while i < len(s):
        if not d and s[i] == '"': q = not q; i += 1; continue
        if not q and s.startswith("(*", i): d += 1; o[i] = o[i + 1] = " "; i += 2; continue
        if d and s.startswith("*)", i): d -= 1; o[i] = o[i + 1] = " "; i += 2; continue
        if d and s[i] != "\n": o[i] = " "
        i += 1
    return "".join(o)

def definitions(s):
    b = blank(s)
    for m in re.finditer(r"^(?:Definition|Fixpoint)\s+([\w']+)", b, re.M):
        e = re.compile(r"\.(?=\s)").search(b, m.end())
        body = b.find(":=", m.end())
        if e and body != -1 and body < e.start(): yield m.group(1), body + 2, e.start()

def edits(b, lo, hi):
    t = b[lo:hi]
    for x, y in SWAP:
        for p, q in ((x, y), (y, x)):
            if p == q: continue
            pat = re.escape(p) if not p[0].isalnum() else r"\b" + re.escape(p) + r"\b"
            for m in re.finditer(pat, t): yield lo + m.start(), lo + m.end(), q, f"{p.strip()} becomes {q.strip()}"
    for m in re.finditer(r"(?<![\w\"])\d+(?![\w\"])", t):
        n = int(m.group()); k = 0 if n == 1 else n + 1
        yield lo + m.start(), lo + m.end(), str(k), f"{n} becomes {k}"
    for m in re.finditer(r'"([^"\n]+)"', t): yield lo + m.start(1), lo + m.end(1), m.group(1) + "_", f'string "{m.group(1)}" changed'
    for m in re.finditer(r"(?<=[\w)] )([a-z]\w*) ([a-z]\w*)(?![\w'.])", t):
        u, v = m.groups()
        if u != v and not {u, v} & {"then", "else", "if", "let", "in", "fun", "match", "with", "end", "do", "as", "return"}:
            yield lo + m.start(), lo + m.end(), f"{v} {u}", f"{u} and {v} swapped"

done = set()
for f in glob.glob(ROOT + "/seeded/mutants/*.json"):
    for m in json.load(open(f)): done.add((m["file"], m["definition"].split()[0]))
pool = []
for f in sorted(glob.glob(base + "/theories/M*.v")):
    s = open(f).read(); b = blank(s)
    for n, lo, hi in definitions(s):
        es = list(edits(b, lo, hi))
        if es: pool.append((os.path.basename(f), n, s, es))
rnd.shuffle(pool)
pool.sort(key=lambda p: (p[0], p[1]) in done)
props = sorted(os.path.basename(p)[:-2] for p in glob.glob(base + "/theories/Props*.v"))
tmp = "/tmp/automut"; shutil.rmtree(tmp, ignore_errors=True); os.makedirs(tmp)
res = []
for f, n, s, es in pool:
    if len(res) == count: break
    rnd.shuffle(es)
    for a, e, new, what in es[:6]:
        t = s[:a] + new + s[e:]
        open(tmp + "/" + f, "w").write(t)
        if subprocess.run(["timeout", "60", "coqc", "-Q", base + "/theories", "Verif", tmp + "/" + f], capture_output=True).returncode: continue
        lo, hi = a, e
        while s.count(s[lo:hi]) != 1: lo, hi = max(0, lo - 10), min(len(s), hi + 10)
        res.append({"file": f, "definition": n, "old": s[lo:hi], "new": s[lo:a] + new + s[e:hi], "edit": what, "claims": [], "props": props, "auto": True})
        break
json.dump(res, open(out, "w"), indent=1)
print(len(pool), "definitions,", len(res), "edits")
