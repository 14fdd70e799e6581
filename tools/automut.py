#!/usr/bin/env python3
"""Automatic seeded edits: one small change in one definition of the model.

usage: automut.py gen [SEED]      choose the edits, SCRATCH/auto.json
       automut.py run [FROM [TO]] try them, stop each at the first failed theorem
       automut.py show            list the edits that no theorem noticed

Uses the base copy made by seed.py base.
"""
import json, os, random, re, shutil, subprocess, sys, time
from concurrent.futures import ThreadPoolExecutor, as_completed
sys.argv, ARGV = ["seed.py", "none"], sys.argv
src = open("/verif/tools/seed.py").read().replace("\nmain()\n", "\n")
exec(src)

FILES = ["Base.v", "Checking.v", "Interval.v", "Utility.v", "Arith.v", "Arith2.v", "FloatNum.v", "Compare.v", "Transc.v", "ExactNum.v",
         "Extras.v", "HwControl.v", "Examples.v", "ExNewton.v", "ExFilter.v", "ExFindroot.v", "ExIo.v", "ExTransc.v"]
OPS = [(r"\bn_lt N\b", "n_le N"), (r"\bn_le N\b", "n_lt N"), (r"\bn_ge\b", "n_gt"), (r"\bn_gt\b", "n_ge"), (r"\bis_neg\b", "is_pos"),
       (r"\bis_pos\b", "is_neg"), (r"\bnegb \(", "("), (r"_down\b", "_up"), (r"_up\b", "_down"), (r"\blow\b", "up"), (r"\bup\b", "low"),
       (r"&&", "||"), (r"\|\|", "&&"), (r"\bzero\b", "one"), (r"\bone\b", "zero"), (r"\btrue\b", "false"), (r"\bfalse\b", "true"),
       (r"\bwith_rnd [PQ] \(", "("), (r"\bstd_max\b", "std_min"), (r"\bstd_min\b", "std_max"), (r"\bRDN\b", "RUP"), (r"\bRUP\b", "RDN"),
       (r"\bRNE\b", "RUP"), (r"\bi_empty P\b", "i_whole P"), (r"\bi_whole P\b", "i_empty P"), (r"\bfst\b", "snd"), (r"\bsnd\b", "fst"),
       (r"\bpos_inf\b", "neg_inf"), (r"\bneg_inf\b", "pos_inf"), (r" - 1\b", ""), (r" \+ 1\b", ""), (r"=\?", "<=?"), (r"<\?", "<=?"),
       (r"<=\?", "<?"), (r"\bmone\b", "one"), (r"\bPu\b", "P"), (r"\bZ\.odd\b", "Z.even"), (r"\btest_input_i P x\b", "false"),
       (r"\bmk (\w+) (\w+)\b", r"mk \2 \1"), (r"\bx\b", "y"), (r"\by\b", "x"), (r"\bop_add", "op_sub"), (r"\bop_sub", "op_add")]

def blank(s):
    """comments replaced by blanks"""
    out, d, i = [], 0, 0
    while i < len(s):
        if s.startswith("(*", i): d += 1; out.append("  "); i += 2; continue
        if s.startswith("*)", i) and d: d -= 1; out.append("  "); i += 2; continue
        out.append(s[i] if d == 0 or s[i] == "\n" else " "); i += 1
    return "".join(out)

def gen(seed):
    rnd = random.Random(seed)
    res = []
    for f in FILES:
        s = blank(open(BASE + "/theories/" + f).read())
        hs = list(re.finditer(r"^(?:Definition|Fixpoint|Lemma|Theorem|Instance|Record|Inductive|Section|End|Notation|Context|Arguments|Variable|Local|Ltac|Example)\b", s, re.M)) 
        for k, h in enumerate(hs):
            if h.group(0) not in ("Definition", "Fixpoint"): continue
            stop = hs[k + 1].start() if k + 1 < len(hs) else len(s)
            body = s[h.start():stop]
            name = body.split()[1]
            b0 = body.find(":=")
            if b0 < 0: continue
            cand = []
            for a, b in OPS:
                ms = [m for m in re.finditer(a, body) if m.start() > b0]
                if ms:
                    m = rnd.choice(ms)
                    cand.append((h.start() + m.start(), h.start() + m.end(), m.expand(b)))
            rnd.shuffle(cand)
            for (i, j, new) in cand[:max(1, min(4, len(body) // 150))]:
                res.append(dict(file=f, definition=name, start=i, end=j, new=new, context=s[max(h.start(), i - 40):j + 30]))
    rnd.shuffle(res)
    json.dump(res, open(SCRATCH + "/auto.json", "w"), indent=1)
    print(len(res))

def attempt(k, m, dep, times):
    root = SCRATCH + "/auto_%d" % k
    if os.path.exists(root): shutil.rmtree(root)
    subprocess.run(["cp", "-a", BASE, root], check=True)
    path = root + "/theories/" + m["file"]
    s = open(path).read()
    open(path, "w").write(s[:m["start"]] + m["new"] + s[m["end"]:])
    t0 = time.time()
    try:
        log = sh("make vos -k -j%d" % JOBS, root)
        if "Error" in log:
            e = re.findall(r'File "\./theories/([A-Za-z0-9_]+\.v)", line (\d+)', log)
            # a definition that no longer type checks, or a proof in an interface
            return dict(verdict="ill-typed", where=e[:1])
        fs = sorted(cone(deps(root), "theories/" + m["file"]), key=lambda f: times.get(f, 60))
        with ThreadPoolExecutor(JOBS) as ex:
            todo = list(fs)
            while todo:
                batch, todo = todo[:JOBS], todo[JOBS:]
                for fl, er in ex.map(lambda f: first(root, f), batch):
                    if fl is None: continue
                    short = fl.split(".")[-1]
                    hit = [t for t in dep if t == short or short in set(x.split(".")[-1] for x in dep[t])]
                    if hit or "_case" in short or er: return dict(verdict="killed", lemma=fl, theorems=hit[:3], error=er)
                    todo = fs[fs.index(batch[-1]) + 1:]
        return dict(verdict="survived")
    finally:
        shutil.rmtree(root)
        m["seconds"] = int(time.time() - t0)

def first(root, f):
    """the first lemma of f whose proof fails and on which a theorem rests"""
    dep = json.load(open(SCRATCH + "/deps.json"))
    used = set(x.split(".")[-1] for t in dep for x in dep[t]) | set(dep)
    path = root + "/" + f
    for _ in range(50):
        log = sh("timeout 1500 coqc -vok -w none -Q theories Verif %s" % f, root)
        es = re.findall(r'File "\./%s", line (\d+), characters[^\n]*\n(?:[^\n]*\n){0,8}?Error' % re.escape(f), log)
        if "Error" not in log and not es:
            return (None, None) if os.path.exists(path + "ok") else (f, "no output")
        line = int(es[-1]) if es else 0
        src = open(path).read()
        pos = sum(len(l) + 1 for l in src.split("\n")[:line - 1])
        eol = src.find("\n", pos)
        eol = len(src) if eol < 0 else eol
        ls = lemmas(src)
        hit = None
        for k, (st, name, pr, e) in enumerate(ls):
            if st <= eol and e > pos: hit = k
        if hit is None: return f, " ".join(log.split())[-150:]
        n = ls[hit][1]
        if n in used: return os.path.basename(f)[:-2] + "." + n, None
        for k in range(hit, -1, -1):
            st, name, pr, e = ls[k]
            body = src[pr.end():e]
            src = src[:pr.end()] + " Admitted." + "\n" * body.count("\n") + src[e:]
        open(path, "w").write(src)
    return f, "many"

def go(a, b):
    res = json.load(open(SCRATCH + "/auto.json"))
    dep = json.load(open(SCRATCH + "/deps.json")); times = json.load(open(SCRATCH + "/times.json"))
    for k in range(a, min(b, len(res))):
        if "result" in res[k]: continue
        r = attempt(k, res[k], dep, times)
        sec = res[k].get("seconds")
        res = json.load(open(SCRATCH + "/auto.json"))
        res[k]["result"] = r; res[k]["seconds"] = sec
        json.dump(res, open(SCRATCH + "/auto.json", "w"), indent=1)
        print(k, res[k]["file"], res[k]["definition"], repr(res[k]["new"]), r["verdict"], r.get("lemma") or r.get("where"), sec); sys.stdout.flush()

if ARGV[1] == "gen": gen(int(ARGV[2]) if len(ARGV) > 2 else 1)
elif ARGV[1] == "run": go(int(ARGV[2]) if len(ARGV) > 2 else 0, int(ARGV[3]) if len(ARGV) > 3 else 10**6)
else:
    for k, m in enumerate(json.load(open(SCRATCH + "/auto.json"))):
        if m.get("result", {}).get("verdict") == "survived": print(k, m["file"], m["definition"], m["new"], "@@", " ".join(m["context"].split()))
