"""Try wrong programs on the theorems.

usage: mutate.py MUTANTS.json WORKDIR [LOG]
Each mutant is {"file", "definition", "old", "new", "edit", "claims", "props"}: in a scratch copy of the built development the text `old`
of the model file becomes `new`, and the Props files `props` are rebuilt.  When a proof fails, the property theorems resting on it are found
by following the lemma names in the proofs (names defined in more than one file only count inside their own file).  As soon as every claim
in `claims` has a failed theorem the build is stopped.  Otherwise the failed lemmas are admitted in the scratch copy and the build goes on,
until everything has been rebuilt ("auto" mutants stop at the first failed property theorem): a claim still without a failed theorem is then proved for the wrong program.
"""
import glob, json, os, re, shutil, signal, subprocess, sys, time
base = os.environ.get("MUT_BASE", "/tmp/mutbase")
JOBS = os.environ.get("MUT_JOBS", "3")
STEP = os.environ.get("MUT_STEP", "900")
START = re.compile(r"^\s*(?:Global |Local )?(Lemma|Theorem|Example|Corollary|Fact|Remark)\s+([\w']+)")

def lemmas(path):
    """[(name, first line, last line, proof text)] of a file"""
    src = open(path).read().split("\n"); out = []; i = 0
    while i < len(src):
        m = START.match(src[i])
        if not m: i += 1; continue
        j = i
        while j < len(src) and not re.search(r"\b(Qed|Defined|Admitted)\.", src[j]): j += 1
        text = "\n".join(src[i:j + 1])
        out.append((m.group(2), i + 1, j + 1, text)); i = j + 1
    return out

def graph():
    defs, where = {}, {}
    for f in glob.glob(base + "/theories/*.v"):
        b = os.path.basename(f)[:-2]
        for n, _, _, t in lemmas(f):
            defs[(b, n)] = set(re.findall(r"[A-Za-z_][\w']*", t)); where.setdefault(n, []).append(b)
    users = {}
    for (b, n), toks in defs.items():
        for t in toks:
            if t not in where or (t == n): continue
            d = b if b in where[t] else (where[t][0] if len(where[t]) == 1 else None)
            if d: users.setdefault((d, t), set()).add((b, n))
    return users
USERS = graph()

def affected(node):
    seen, todo = {node}, [node]
    while todo:
        for u in USERS.get(todo.pop(), ()):
            if u not in seen: seen.add(u); todo.append(u)
    return sorted(n for b, n in seen if b.startswith("Props") and re.match(r"C\d+_", n) and not re.search(r"_case$", n))

def admit(path, line):
    for n, a, b, text in lemmas(path):
        if a <= line <= b:
            m = re.search(r"(?:^|\s)Proof\b[^.]*\.(?=\s)", text)
            if not m: return None, "no Proof in " + n
            if line < a + text[:m.start()].count("\n"): return None, "the statement of " + n + " no longer typechecks"
            src = open(path).read().split("\n")
            src[a - 1:b] = (text[:m.start()] + "\nAdmitted.").split("\n")
            open(path, "w").write("\n".join(src))
            return n, None
    return None, "no enclosing lemma"

def run(mut, work):
    for _ in range(60):                      # children of a stopped build may still be writing
        shutil.rmtree(work, ignore_errors=True)
        if not os.path.exists(work): break
        time.sleep(1)
    shutil.copytree(base, work, copy_function=shutil.copy2)
    path = os.path.join(work, "theories", mut["file"])
    s = open(path).read()
    n = s.count(mut["old"])
    if n != 1: return {"error": "old text occurs %d times" % n}
    open(path, "w").write(s.replace(mut["old"], mut["new"]))
    targets = ["theories/%s.vo" % p for p in mut["props"]]
    for t in [] if mut.get("auto") else targets:
        if os.path.exists(os.path.join(work, t)): os.remove(os.path.join(work, t))
    failed, hit = [], set()
    done = lambda: (mut.get("auto") and hit) or mut["claims"] and all(any((h + "_").startswith(c + "_") for h in hit) for c in mut["claims"])
    for rnd in range(60):
        p = subprocess.Popen(["make", "-k", "-j" + JOBS, "COQC=timeout %s coqc" % STEP] + targets, cwd=work, text=True,
                             stdout=subprocess.PIPE, stderr=subprocess.STDOUT, start_new_session=True)
        buf, todo, out = "", [], []
        for l in p.stdout:
            out.append(l); buf += l
            m = re.search(r'File "\./(theories/[\w]+\.v)", line (\d+)(?:-\d+)?, characters [\d-]+:\n(?:(?!File ")(?!Error).*\n)*Error', buf)
            if m:
                buf = ""
                f, ln = m.group(1), int(m.group(2)); b = os.path.basename(f)[:-2]
                name = next((n for n, a, e, _ in lemmas(os.path.join(work, f)) if a <= ln <= e), None)
                todo.append((f, ln))
                if name:
                    failed.append(b + ":" + name); hit.update(affected((b, name)))
                if done():
                    os.killpg(p.pid, signal.SIGKILL); p.wait()
                    return {"lemmas": failed, "failed": sorted(hit)}
        if p.wait() == 0: break
        if not todo: return {"error": "build failed without a usable location: " + "".join(out)[-500:], "lemmas": failed, "failed": sorted(hit)}
        for f, ln in todo:
            got, why = admit(os.path.join(work, f), ln)
            if not got: return {"error": "%s:%d %s" % (f, ln, why), "lemmas": failed, "failed": sorted(hit)}
    return {"lemmas": failed, "failed": sorted(hit)}

if __name__ == "__main__":
    muts = json.load(open(sys.argv[1])); work = sys.argv[2]
    log = sys.argv[3] if len(sys.argv) > 3 else None
    for i, mut in enumerate(muts):
        t = time.time(); res = run(mut, work)
        res = {**mut, **res, "seconds": round(time.time() - t)}
        missing = [c for c in mut["claims"] if not any((x + "_").startswith(c + "_") for x in res.get("failed", []))]
        res["missing"] = missing
        print(i, mut["definition"], "|", mut["edit"], "->", res.get("error") or "", "FAILED", " ".join(res.get("failed", [])), "| MISSING" if missing else "|", " ".join(missing), "| %ds" % res["seconds"], flush=True)
        if log: open(log, "a").write(json.dumps(res) + "\n")
