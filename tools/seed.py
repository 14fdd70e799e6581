#!/usr/bin/env python3
"""Seeded-bug testing of the theorems, in a scratch copy outside of /verif.

usage: seed.py base             prepare SCRATCH/base from the compiled /verif/rocq
       seed.py run NAME...      try the named mutants of seeded/mutants.py
       seed.py run --all        try those that have no result yet
       seed.py log              write seeded/LOG.jsonl from the results

With SEED_QUICK=1 only the files that the theorems of the broken claim rest on are
checked again.

The base copy has "Proof using" on every proof inside a section, so that the
interfaces (.vos) can be rebuilt without running any proof.  For one mutant: edit
the model, rebuild the interfaces, then check the proofs of every file that depends
on the edited one.  When a proof fails it is dropped and the rest of the file is
checked.  A theorem of MANIFEST.json fails on the edited program when its own proof
fails or when it rests on a lemma whose proof fails.
"""
import glob, json, os, re, shutil, subprocess, sys, time
from concurrent.futures import ThreadPoolExecutor

SCRATCH = os.environ.get("SEED_DIR", "/tmp/seed")
SRC = "/verif/rocq"
BASE = SCRATCH + "/base"
JOBS = int(os.environ.get("SEED_JOBS", "3"))
HEAD = re.compile(r"^\s*(?:#\[[^\]]*\]\s*)?(?:Local |Global )?(Lemma|Theorem|Corollary|Example|Fact|Remark|Instance|Definition|Fixpoint)\s+([A-Za-z0-9_']+)", re.M)
END = re.compile(r"\b(Qed|Defined)\.")
PROOF = re.compile(r"\bProof( using[^.]*)?\.")

def sh(cmd, cwd, timeout=7200):
    return subprocess.run(cmd, shell=True, cwd=cwd, stdout=subprocess.PIPE, stderr=subprocess.STDOUT, text=True, timeout=timeout).stdout

def files(root):
    return [l.strip() for l in open(root + "/_CoqProject") if l.strip().endswith(".v")]

def lemmas(src):
    """(start, name, proof start, end) of every proof script ended by Qed"""
    res = []
    hs = list(HEAD.finditer(src))
    for k, h in enumerate(hs):
        stop = hs[k + 1].start() if k + 1 < len(hs) else len(src)
        p = PROOF.search(src, h.end(), stop)
        if p is None: continue
        e = END.search(src, p.end(), stop)
        if e is None or e.group(1) != "Qed": continue
        res.append((h.start(), h.group(2), p, e.end()))
    return res

def deps(root):
    out = sh("coqdep -Q theories Verif theories/*.v", root)
    d = {}
    for l in out.split("\n"):
        m = re.match(r"(theories/\w+)\.vo .*?: (.*)", l)
        if m: d[m.group(1) + ".v"] = set(x[:-1] for x in m.group(2).split() if x.endswith(".vo"))
    return d

def cone(d, f):
    s = {f}
    while True:
        n = {g for g in d if d[g] & s} | s
        if n == s: return s
        s = n

def below(d, fs):
    """the files that fs rest on"""
    s = set(fs)
    while True:
        n = s | {g for f in s for g in d.get(f, ()) if g.startswith("theories/")}
        if n == s: return s
        s = n

def home(root, claim):
    """the files with the theorems of a claim"""
    return {f for f in files(root) if re.search(r"^Theorem %s_" % claim, open(root + "/" + f).read(), re.M)}

def manifest():
    return [t for c in json.load(open("/verif/MANIFEST.json"))["claims"] for t in c["theorems"]]

def base():
    if os.path.exists(SCRATCH + "/orig"): shutil.rmtree(SCRATCH + "/orig")
    os.makedirs(SCRATCH, exist_ok=True)
    orig = SCRATCH + "/orig"
    shutil.copytree(SRC, orig)
    names = manifest()
    old = lambda n: json.load(open(SCRATCH + n)) if os.path.exists(SCRATCH + n) else {}
    uses, times = old("/uses.json"), old("/times.json")
    def suggest(f):
        src = open(orig + "/" + f).read()
        t = SCRATCH + "/using_" + os.path.basename(f)
        new = "Set Suggest Proof Using.\n" + src
        if f in times and os.path.exists(t) and open(t).read() == new: return
        open(t, "w").write(new)
        t0 = time.time()
        out = sh("coqc -Q theories Verif %s" % t, orig)
        times[f] = time.time() - t0
        for m in re.finditer(r"The proof of ([^\s]+)\s+should start with one of the following commands:\s+Proof using ?(.*?)\s*\.\s*\n", out, re.S):
            uses[os.path.basename(f) + ":" + m.group(1)] = " ".join(m.group(2).split())
        for m in re.finditer(r"The proof of ([^\s]+)\s+should start with:\s+Proof using ?(.*?)\s*\.\s*\n", out, re.S):
            uses[os.path.basename(f) + ":" + m.group(1)] = " ".join(m.group(2).split())
        print(f, int(times[f]), len(uses)); sys.stdout.flush()
    with ThreadPoolExecutor(JOBS) as ex: list(ex.map(suggest, files(orig)))
    json.dump(uses, open(SCRATCH + "/uses.json", "w")); json.dump(times, open(SCRATCH + "/times.json", "w"))
    # opaque dependencies of every theorem
    where = {}
    for f in files(orig):
        for x in re.finditer(r"^(?:Theorem|Lemma|Corollary) ([A-Za-z0-9_']+)", open(orig + "/" + f).read(), re.M): where[x.group(1)] = os.path.basename(f)[:-2]
    dep = {}
    os.makedirs(orig + "/out", exist_ok=True)
    s = "".join("From Verif Require %s.\n" % os.path.basename(f)[:-2] for f in files(orig))
    for t in names: s += 'Redirect "out/%s" Print Opaque Dependencies Verif.%s.%s.\n' % (t, where[t], t)
    open(orig + "/chk.v", "w").write(s)
    print(sh("coqc -Q theories Verif chk.v", orig)[-500:])
    for t in names:
        o = open(orig + "/out/%s.out" % t).read()
        dep[t] = sorted(set(re.findall(r"^([A-Za-z0-9_'.]+)\s*(?::|$)", o, re.M)))
    json.dump(dep, open(SCRATCH + "/deps.json", "w"))
    fresh()

def fresh():
    uses = json.load(open(SCRATCH + "/uses.json"))
    if os.path.exists(BASE): shutil.rmtree(BASE)
    shutil.copytree(SCRATCH + "/orig", BASE, ignore=shutil.ignore_patterns("*.vo", "*.vok", "*.vos", "*.glob", "*.aux", "out"))
    for f in files(BASE):
        p = BASE + "/" + f
        src = open(p).read()
        for st, name, pr, e in reversed(lemmas(src)):
            u = uses.get(os.path.basename(f) + ":" + name)
            if u is None or pr.group(1): continue
            src = src[:pr.start()] + ("Proof using %s." % u if u else "Proof using.") + src[pr.end():]
        i = src.find("From ")
        open(p, "w").write(src[:i] + "Set Default Timeout 150. " + src[i:])
    sh("coq_makefile -f _CoqProject -o Makefile", BASE)
    t0 = time.time()
    print(sh("make vos -j4 2>&1 | tail -5", BASE), time.time() - t0)

def check(root, f):
    """names of the lemmas of f whose proofs fail, and other errors"""
    path = root + "/" + f
    failed, errs = [], []
    for _ in range(200):
        log = sh("timeout 1500 coqc -vok -w none -Q theories Verif %s" % f, root)
        m = re.search(r'File "\./%s", line (\d+), characters[^\n]*\n(?:Warning[^\n]*\n)?' % re.escape(f), log)
        es = re.findall(r'File "\./%s", line (\d+), characters[^\n]*\n(?:[^\n]*\n){0,8}?Error' % re.escape(f), log)
        if "Error" not in log and not es:
            if not os.path.exists(path + "ok"): errs.append(f + ": no output " + log[-100:])
            break
        line = int(es[-1] if es else m.group(1) if m else 0)
        src = open(path).read()
        pos = sum(len(l) + 1 for l in src.split("\n")[:line - 1])
        eol = src.find("\n", pos)
        eol = len(src) if eol < 0 else eol
        ls = lemmas(src)
        hit = None
        for k, (st, name, pr, e) in enumerate(ls):
            if st <= eol and e > pos: hit = k
        if hit is None:
            errs.append("%s:%d %s" % (f, line, " ".join(log.split())[-200:])); break
        for k in range(hit, -1, -1):
            st, name, pr, e = ls[k]
            body = src[pr.end():e]
            src = src[:pr.end()] + " Admitted." + "\n" * body.count("\n") + src[e:]
        failed.append(ls[hit][1])
        open(path, "w").write(src)
    return [os.path.basename(f)[:-2] + "." + n for n in failed], errs

def run(m):
    root = SCRATCH + "/work_" + m["name"]
    if os.path.exists(root): shutil.rmtree(root)
    subprocess.run(["cp", "-a", BASE, root], check=True)
    path = root + "/theories/" + m["file"]
    src = open(path).read()
    n = src.count(m["old"])
    if n == 0 or (n > 1 and "nth" not in m):
        return dict(error="pattern occurs %d times" % n)
    i = -1
    for _ in range(m.get("nth", 1)): i = src.index(m["old"], i + 1)
    open(path, "w").write(src[:i] + m["new"] + src[i + len(m["old"]):])
    t0 = time.time()
    log = sh("make vos -k -j%d" % JOBS, root)
    errors = re.findall(r'File "\./(theories/[A-Za-z0-9_]+\.v", line \d+), characters[^\n]*\n(?:[^\n]*\n){0,8}?Error[^\n]*\n[^\n]*\n[^\n]*', log)
    failed = []
    times = json.load(open(SCRATCH + "/times.json"))
    if not errors:
        d = deps(root)
        fs = cone(d, "theories/" + m["file"])
        if os.environ.get("SEED_QUICK"): fs &= below(d, home(root, m["claim"]))
        fs = sorted(fs, key=lambda f: -times.get(f, 1))
        with ThreadPoolExecutor(JOBS) as ex:
            for fl, er in ex.map(lambda f: check(root, f), fs): failed += fl; errors += er
    else: errors.append(log[-600:])
    dep = json.load(open(SCRATCH + "/deps.json"))
    short = set(x.split(".")[-1] for x in failed)
    own = [t for t in dep if t in short]
    tainted = [t for t in dep if t in short or short & set(x.split(".")[-1] for x in dep[t])]
    shutil.rmtree(root)
    return dict(failed_lemmas=failed, failed_theorems=tainted, own=own, errors=errors, seconds=int(time.time() - t0))

def mutants():
    ns = {}
    exec(open("/verif/seeded/mutants.py").read(), ns)
    return {m["name"]: m for m in ns["MUTANTS"]}

def definition(m):
    """name of the definition that the edit changes"""
    src = open(SRC + "/theories/" + m["file"]).read()
    i = -1
    for _ in range(m.get("nth", 1)): i = src.find(m["old"], i + 1)
    if i < 0: return m["file"]
    ds = [d for d in re.finditer(r"^\s*(?:Definition|Fixpoint|Inductive|Record)\s+([A-Za-z0-9_']+)", src, re.M) if d.start() <= i + len(m["old"]) - 1]
    return "%s: %s" % (m["file"], ds[-1].group(1) if ds else "")

def log(muts):
    res = {}
    for d in sorted(glob.glob("/tmp/seed*/results.json")): res.update(json.load(open(d)))
    out = []
    for n, m in muts.items():
        if n not in res or n == "null" or "failed_lemmas" not in res[n]: continue
        r = res[n]
        if r["errors"] and not r["failed_lemmas"]: print("not a valid edit:", n); continue
        c = m["claim"]
        out.append(dict(name=n, definition=definition(m), edit=m["note"], old=m["old"], new=m["new"], claim_broken=c,
            proofs_failed=r["failed_lemmas"], theorems_failed=[t for t in r["failed_theorems"] if t.startswith(c + "_")],
            other_theorems_failed=[t for t in r["failed_theorems"] if not t.startswith(c + "_")],
            theorems_tightened=m.get("tightened", []),
            verdict="detected" if any(t.startswith(c + "_") for t in r["failed_theorems"]) else m.get("verdict", "not detected")))
    open("/verif/seeded/LOG.jsonl", "w").write("".join(json.dumps(x) + "\n" for x in out))
    print(len(out))

def main():
    if sys.argv[1] == "base": return base()
    if sys.argv[1] == "fresh": return fresh()
    muts = mutants()
    if sys.argv[1] == "log": return log(muts)
    resf = SCRATCH + "/results.json"
    res = json.load(open(resf)) if os.path.exists(resf) else {}
    names = sys.argv[2:]
    if names == ["--all"]: names = [n for n in muts if n not in res]
    for n in names:
        r = run(muts[n])
        res = json.load(open(resf)) if os.path.exists(resf) else {}
        res[n] = r
        json.dump(res, open(resf, "w"), indent=1)
        c = muts[n]["claim"]
        print(n, c, "KILLED" if any(t.startswith(c + "_") for t in r.get("failed_theorems", [])) else "SURVIVED", len(r.get("failed_lemmas", [])), r.get("errors") or r.get("error"), r.get("seconds")); sys.stdout.flush()
main()
