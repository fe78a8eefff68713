#!/usr/bin/env python3
"""Test the theorems against a wrong program.

usage: mutate.py prepare            copy rocq/ to a scratch directory and build it there
       mutate.py run FILE.json      apply each edit of the list in a copy, rebuild, report
       mutate.py quick FILE.json [K]  the same from the K-th edit on, but stop a little after the first property
                                    theorem is lost: the theorems whose proof uses a failed proof (.glob files of the base)
An edit: {"file": "XModel.v", "definition": name, "old": text, "new": text, "claim": text}.
A proof that no longer checks is admitted in the copy and the build goes on; the property
theorems (Cxx_...) that then depend on an admitted proof are the ones that failed.
"""
import json, os, re, shutil, subprocess, sys
SRC = "/verif/rocq"
WORK = os.environ.get("MUTATE_DIR", "/tmp/w/mutants")
BASE = WORK + "/base"

def files(root):
    return [l.strip() for l in open(root + "/_CoqProject") if l.strip().endswith(".v")]

def prepare():
    os.makedirs(WORK, exist_ok=True)
    shutil.rmtree(BASE, ignore_errors=True)
    os.makedirs(BASE + "/theories")
    shutil.copy(SRC + "/_CoqProject", BASE)
    for f in files(SRC): shutil.copy(f"{SRC}/{f}", f"{BASE}/{f}")
    subprocess.run("coq_makefile -f _CoqProject -o Makefile >/dev/null && make -j4 COQEXTRAFLAGS='-set \"Suggest Proof Using\"' > log 2>&1", shell=True, cwd=BASE, check=True)
    using = {}
    log = open(BASE + "/log").read()
    for m in re.finditer(r"The proof of (\S+) should start with one of the following commands:\s*\nProof using ([^.]*)\.", log):
        using.setdefault(m.group(1), m.group(2).strip())
    json.dump(using, open(BASE + "/using.json", "w"))
    print(len(using), "section proofs")

HEAD = re.compile(r"^\s*(?:Local |Global |#\[[^\]]*\]\s*)*(Lemma|Theorem|Example|Corollary|Fact|Remark|Proposition|Instance|Definition|Fixpoint)\s+([A-Za-z_0-9']+)", re.M)

def admit(path, line, using):
    """admit the proof enclosing a line; returns its name"""
    s = open(path).read()
    pos = 0
    for _ in range(line - 1): pos = s.index("\n", pos) + 1
    eol = s.find("\n", pos); eol = len(s) if eol < 0 else eol
    heads = [m for m in HEAD.finditer(s) if m.start() <= eol]
    if not heads: return None
    h = heads[-1]
    name = h.group(2)
    i = s.find("Proof", h.end())
    if i < 0: return None
    ends = [x for x in (s.find("Qed.", i), s.find("Defined.", i)) if x >= 0]
    if not ends: return None
    j = min(ends); j = s.index(".", j) + 1
    if HEAD.search(s, h.end(), i): return None
    u = using.get(name)
    if u is not None: u = " ".join(v for v in u.split() if re.search(r"\b%s\b" % re.escape(v), s))
    new = ("Proof using %s. Admitted." % u) if u is not None else "Proof. Admitted."
    new += "\n" * s[i:j].count("\n")
    s = s[:i] + new + s[j:]
    open(path, "w").write(s)
    return name

def run_one(k, e):
    d = f"{WORK}/run"
    shutil.rmtree(d, ignore_errors=True)
    shutil.copytree(BASE, d, copy_function=shutil.copy2)
    using = json.load(open(BASE + "/using.json"))
    edits = e["edits"] if "edits" in e else [e]
    for x in edits:
        p = f"{d}/theories/{x['file']}"
        s = open(p).read()
        if s.count(x["old"]) != 1:
            return {"error": "old text occurs %d times" % s.count(x["old"])}
        open(p, "w").write(s.replace(x["old"], x["new"]))
    failed = []
    for _ in range(400):
        r = subprocess.run("timeout 1500 make -k -j2 > log 2>&1", shell=True, cwd=d)
        log = open(d + "/log").read()
        errs = re.findall(r'File "\./(theories/\S+?\.v)", line (\d+), characters [^\n]*\nError:', log)
        if not errs:
            if r.returncode != 0: return {"error": log[-800:], "failed_proofs": failed}
            break
        for f, l in sorted(set(errs)):
            n = admit(f"{d}/{f}", int(l), using)
            if n is None: return {"error": f"cannot admit {f}:{l} " + log[-600:], "failed_proofs": failed}
            failed.append(f"{os.path.basename(f)}:{n}")
    # property theorems that depend on an admitted proof
    lemmas = {x.split(":")[1] for x in failed}
    hit = []
    for f in files(BASE):
        s = open(f"{d}/{f}").read()
        names = re.findall(r"^\s*(?:Theorem|Corollary)\s+(C\d+_\w+)", s, re.M)
        if not names: continue
        vo, vo0 = f"{d}/{f}o", f"{BASE}/{f}o"
        if os.path.getmtime(vo) == os.path.getmtime(vo0): continue
        t = f"{d}/q.v"
        mod = os.path.basename(f)[:-2]
        open(t, "w").write(f"From Verif Require Import {mod}.\n" + "".join(f'Print Assumptions {n}.\n' for n in names))
        out = subprocess.run(["coqc", "-Q", d + "/theories", "Verif", t], capture_output=True, text=True).stdout
        blocks = re.split(r"^(?=Closed under|Axioms:)", out, flags=re.M)[1:]
        for n, b in zip(names, blocks):
            ax = set(re.findall(r"^([A-Za-z_0-9'.]+)\s*:", b, re.M)) - {"Axioms"}
            if any(a.split(".")[-1] in lemmas for a in ax): hit.append(n)
    return {"failed_proofs": failed, "failed": hit}

PROPERTIES = set()
def uses():
    """for each proof or definition of the base, those that mention it"""
    users = {}
    for f in files(BASE):
        g = f"{BASE}/{f[:-2]}.glob"
        mod = os.path.basename(f)[:-2]
        cur, refs = None, []
        items = []
        for l in open(g, errors="replace"):
            m = re.match(r"(prf|def|thm|lem|ex|inst|fix)\S* (\d+):\d+ \S+ (\S+)", l)
            if m: items.append((int(m.group(2)), 0, (mod, m.group(3)))); continue
            m = re.match(r"R(\d+):\d+ Verif\.(\S+) \S+ (\S+) \S+", l)
            if m: items.append((int(m.group(1)), 1, (m.group(2), m.group(3))))
        for _, k, x in sorted(items):
            if k == 0: cur = x
            elif cur: users.setdefault(x, set()).add(cur)
    return users

def quick_one(e, users):
    import tempfile
    for o in os.listdir(WORK):
        if o.startswith("quick"): shutil.rmtree(f"{WORK}/{o}", ignore_errors=True)
    d = tempfile.mkdtemp(prefix="quick", dir=WORK) + "/q"
    shutil.copytree(BASE, d, copy_function=shutil.copy2)
    for x in (e["edits"] if "edits" in e else [e]):
        p = f"{d}/theories/{x['file']}"
        s = open(p).read()
        if s.count(x["old"]) != 1: return {"error": "old text occurs %d times" % s.count(x["old"])}
        open(p, "w").write(s.replace(x["old"], x["new"]))
    import signal, time
    pr = subprocess.Popen("timeout 1500 make -k -j3 > log 2>&1", shell=True, cwd=d, start_new_session=True)
    first, hit, failed = None, [], []
    while True:
        done = pr.poll() is not None
        log = open(d + "/log", errors="replace").read() if os.path.exists(d + "/log") else ""
        failed = []
        for f, l in sorted(set(re.findall(r'File "\./(theories/\S+?\.v)", line (\d+), characters [^\n]*\nError', log))):
            s = open(f"{d}/{f}").read().split("\n")
            heads = list(HEAD.finditer("\n".join(s[:int(l)])))
            if heads: failed.append((os.path.basename(f)[:-2], heads[-1].group(2)))
        seen, todo = set(failed), list(failed)
        while todo:
            for y in users.get(todo.pop(), ()):
                if y not in seen: seen.add(y); todo.append(y)
        hit = sorted(n for _, n in seen if n in PROPERTIES)
        if hit and first is None: first = time.time()
        if done or (first and time.time() > first + 25): break
        time.sleep(3)
    if not done:
        os.killpg(pr.pid, signal.SIGTERM); pr.wait()
    return {"failed_proofs": [f"{f}.v:{n}" for f, n in failed], "failed": hit, "stopped_early": not done}

def main():
    if sys.argv[1] == "prepare": return prepare()
    if sys.argv[1] == "quick":
        users = uses()
        for f in files(BASE): PROPERTIES.update(re.findall(r"^\s*(?:Theorem|Corollary)\s+(C\d+_\w+)", open(f"{BASE}/{f}").read(), re.M))
        for e in json.load(open(sys.argv[2]))[int(sys.argv[3]) if len(sys.argv) > 3 else 0:]:
            print(json.dumps({"definition": e.get("definition"), "edit": e.get("edit") or f"{e.get('old')} -> {e.get('new')}", "claim": e["claim"], **quick_one(e, users)}), flush=True)
        return
    for k, e in enumerate(json.load(open(sys.argv[2]))):
        r = run_one(k, e)
        o = {"definition": e.get("definition"), "edit": e.get("edit") or f"{e.get('old')} -> {e.get('new')}", "claim": e["claim"], **r}
        print(json.dumps(o), flush=True)
main()
