#!/usr/bin/env python3
"""Try wrong programs: for every mutant in the given python file (a list MUTANTS of
dicts file, definition, old, new, claim) edit one definition in a scratch copy of
rocq/, rebuild, and append the outcome to seeded/LOG.jsonl.

The lemma reported for a file is the first one whose proof no longer checks; the
theorems listed under it are the catalogue theorems (Cnn_...) whose proofs use it,
directly or through other lemmas (from the .glob files)."""
import bisect, glob, json, os, re, shutil, subprocess, sys
SRC = os.environ.get("SRC", "/verif/rocq")
LIMIT = os.environ.get("LIMIT", "240")
LOG = os.environ.get("LOG", "/verif/seeded/LOG.jsonl")
KEY = re.compile(r"^\s*(?:Theorem|Lemma|Corollary|Example|Definition|Fixpoint)\s+(\w+)", re.M)

def decls(path):
    s = open(path).read()
    ms = list(KEY.finditer(s))
    return s, [(m.start(), m.group(1), s[m.start():(ms[i+1].start() if i+1 < len(ms) else len(s))]) for i, m in enumerate(ms)]

def deps():
    """uses of every lemma or definition, from the .glob files of the built copy in SRC"""
    d = {}
    for f in glob.glob(SRC + "/theories/*.glob"):
        lib = os.path.basename(f)[:-5]
        ds, rs = [], []
        for l in open(f):
            m = re.match(r"(?:prf|def) (\d+):\d+ \S+ (\S+)$", l)
            if m: ds.append((int(m.group(1)), m.group(2))); continue
            m = re.match(r"R(\d+):\d+ Verif\.(\w+) \S+ (\S+) (?:thm|def)$", l)
            if m: rs.append((int(m.group(1)), m.group(2), m.group(3)))
        ds.sort()
        starts = [x for x, _ in ds]
        for pos, rl, rn in rs:
            i = bisect.bisect(starts, pos) - 1
            if i >= 0 and (rl, rn) != (lib, ds[i][1]): d.setdefault((rl, rn), set()).add((lib, ds[i][1]))
    return d

def dependents(lib, name, d):
    seen, todo = {(lib, name)}, [(lib, name)]
    while todo:
        for n in d.get(todo.pop(), ()):
            if n not in seen: seen.add(n); todo.append(n)
    return sorted(n for _, n in seen if re.match(r"C\d\d+_", n) and not re.search(r"_ex(\d*|ample)$", n))

def run(m, d, work):
    if os.path.exists(work): shutil.rmtree(work)
    subprocess.run(["cp", "-a", SRC, work], check=True)
    p = f"{work}/theories/{m['file']}"
    s = open(p).read()
    if s.count(m["old"]) < 1: return dict(error="pattern not found")
    i = s.index(m["old"])
    if "after" in m: i = s.index(m["old"], s.index(m["after"]))
    s = s[:i] + m["new"] + s[i+len(m["old"]):]
    open(p, "w").write(s)
    wrapper = work + "/coqc-limited"
    open(wrapper, "w").write('#!/bin/sh\ntimeout %s coqc "$@" || { s=$?; [ $s = 124 ] && echo "TIMEOUT $*"; exit $s; }\n' % LIMIT)
    os.chmod(wrapper, 0o755)
    r = subprocess.run(["make", "-k", "-j%s" % os.environ.get("J", "3"), "COQC=" + wrapper], cwd=work, capture_output=True, text=True)
    out = r.stdout + r.stderr
    failed = []
    for f in re.findall(r"^TIMEOUT .*theories/(\w+)\.v", out, re.M): failed.append((f + ".v", "(proof search runs for more than %s s)" % LIMIT))
    for f, l in re.findall(r'File "\./theories/(\w+\.v)", line (\d+), characters [^:]*:\s*\nError', out):
        txt, ds = decls(f"{work}/theories/{f}")
        pos = sum(len(x)+1 for x in txt.split("\n")[:int(l)-1])
        names = [n for st, n, _ in ds if st <= pos]
        failed.append((f, names[-1] if names else "?"))
    if any(f.startswith("Model") for f, _ in failed): return dict(error="the edited model does not typecheck: %s" % failed)
    th = set()
    for f, n in failed:
        if "(" not in n: th |= set(dependents(f[:-2], n, d))
    return dict(first_broken=[f"{f[:-2]}.{n}" for f, n in failed], theorems=sorted(th), built=r.returncode == 0)

def main():
    ns = {}
    exec(open(sys.argv[1]).read(), ns)
    d = deps()
    done = set()
    if os.path.exists(LOG):
        for l in open(LOG):
            j = json.loads(l); done.add((j["definition"], j["edit"]))
    for m in ns["MUTANTS"]:
        edit = f"{m['old']}  ==>  {m['new']}"
        if (m["definition"], edit) in done: continue
        r = run(m, d, os.environ.get("WORK", "/tmp/mut"))
        if "error" in r: print("SKIP", m["definition"], r["error"], repr(m["old"])); continue
        rec = dict(definition=m["definition"], file=m["file"], edit=edit, claim_broken=m["claim"],
                   caught=not r["built"], first_broken=r["first_broken"], theorems_failed=r["theorems"],
                   theorems_tightened=m.get("tightened", []))
        if "note" in m: rec["note"] = m["note"]
        print("caught" if rec["caught"] else "SURVIVED", m["definition"], "|", m["claim"], "|", r["first_broken"], flush=True)
        open(LOG, "a").write(json.dumps(rec) + "\n")
if __name__ == "__main__": main()
