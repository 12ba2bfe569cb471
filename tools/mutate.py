"""Tests the theorems against wrong programs.

usage: mutate.py scratch_dir mutations.json

Each mutation is {"def", "file", "old", "new", "claim", "props", "targets"}: the edit
replaces [old] by [new] (once) in theories/[file].  The theories are copied to the scratch
directory, the edit is made there and the target files are rebuilt.  A lemma whose proof fails
is admitted in the scratch copy so that the build can go on; a theorem counts as failed when its
own proof fails or when Print Assumptions shows that it rests on an admitted lemma.  One JSON
line per mutation is printed: the definition, the edit, the claim it breaks, the theorems that
failed and the theorems of the named properties that survived."""
import json, os, re, shutil, subprocess, sys, time
root = os.path.dirname(os.path.dirname(os.path.abspath(__file__)))
src = os.path.join(root, "rocq", "theories")
HEAD = re.compile(r"^\s*(?:Local |Global |#\[[^\]]*\]\s*)*(Lemma|Theorem|Example|Corollary|Fact|Remark|Instance|Definition|Program)\s+(\w+)", re.M)

LIMIT = int(os.environ.get("MUT_LIMIT", "1500"))

def deps(files):
    d = {}
    for f in files:
        t = open(os.path.join(src, f)).read()
        ds = set()
        for m in re.finditer(r"From Verif Require (?:Import|Export)?([^.]*)\.", t):
            ds |= {x + ".v" for x in m.group(1).split()}
        d[f] = ds & set(files)
    return d

def order():
    return [re.sub(r"^theories/", "", l.strip()) for l in open(os.path.join(root, "rocq", "_CoqProject")) if l.strip().endswith(".v")]

def closure(d, f, acc):
    for g in d[f]:
        if g not in acc:
            acc.add(g); closure(d, g, acc)
    return acc

def admit_at(text, line):
    """Admit the statement whose proof contains [line] (1-based); returns (text, name) or None."""
    offs = [0]
    for l in text.split("\n"):
        offs.append(offs[-1] + len(l) + 1)
    pos = offs[line - 1] + 1
    starts = [m for m in HEAD.finditer(text) if m.start() <= pos]
    if not starts:
        return None
    m = starts[-1]
    pm = re.compile(r"\bProof\b[^.]*\.").search(text, m.end())
    qm = re.compile(r"\b(Qed|Defined)\.").search(text, m.end())
    if not pm or not qm or pm.start() > qm.start() or not (pm.start() <= pos <= qm.end()):
        return None
    return text[:pm.start()] + "Admitted." + "\n" * text[pm.start():qm.end()].count("\n") + text[qm.end():], m.group(2)

def run(scratch, mut, env):
    th = os.path.join(scratch, "theories")
    files = order()
    d = deps(files)
    os.makedirs(th, exist_ok=True)
    mf = mut["file"]
    text = open(os.path.join(src, mf)).read()
    if text.count(mut["old"]) < 1:
        return {"error": "old text not found", **mut}
    text = text.replace(mut["old"], mut["new"], 1)
    targets = mut.get("targets") or [f for f in files if "Props" in f and mf in closure(d, f, set())]
    need = set(targets)
    for t in targets:
        closure(d, t, need)
    affected = {f for f in need if f == mf or mf in closure(d, f, set())}
    for f in files:
        base = f[:-2]
        for ext in (".v", ".vo", ".glob"):
            p = os.path.join(th, base + ext)
            if os.path.lexists(p):
                os.remove(p)
        if f in need and f not in affected:
            os.symlink(os.path.join(src, base + ".vo"), os.path.join(th, base + ".vo"))
    admitted, failed, seen = set(), set(), set()
    broken = set()
    for f in files:
        if f not in affected:
            continue
        t = text if f == mf else open(os.path.join(src, f)).read()
        if any(g in broken for g in d[f]):
            broken.add(f); continue
        for _ in range(200):
            p = os.path.join(th, f)
            open(p, "w").write(t)
            cmd = ["coqc", "-q"] + env + ["-Q", th, "Verif", p]
            try:
                r = subprocess.run(cmd, capture_output=True, text=True, timeout=LIMIT)
            except subprocess.TimeoutExpired:
                # a proof that no longer terminates: find the command it hangs in
                with open(p + ".time", "w") as out:
                    try:
                        subprocess.run(cmd + ["-time"], stdout=out, stderr=subprocess.DEVNULL, timeout=LIMIT)
                    except subprocess.TimeoutExpired:
                        pass
                ends = [int(e) for e in re.findall(r"^Chars \d+ - (\d+)", open(p + ".time").read(), re.M)]
                at = (ends[-1] if ends else 0) + 2
                a = admit_at(t, len(t.encode()[:at].decode(errors="ignore").split("\n")))
                if not a:
                    broken.add(f); break
                t, name = a
                admitted.add(name)
                continue
            if r.returncode == 0:
                break
            m = re.search(r'File "[^"]*", line (\d+)', r.stderr)
            a = admit_at(t, int(m.group(1))) if m else None
            if not a:
                broken.add(f)
                sys.stderr.write("%s: %s\n" % (f, r.stderr[:400]))
                break
            t, name = a
            admitted.add(name)
        if f in broken:
            continue
        # Print Assumptions sections follow the order of the commands.
        names = re.findall(r"Print Assumptions (\w+)", t)
        secs = re.split(r"^(?=Axioms:|Closed under the global context)", r.stdout, flags=re.M)
        secs = [s for s in secs if s.startswith("Axioms:") or s.startswith("Closed under")]
        for n, s in zip(names, secs):
            seen.add(n)
            if n in admitted or any(re.search(r"^(\w+\.)*%s\b" % re.escape(a), s, re.M) for a in admitted):
                failed.add(n)
    all_of = {}
    for f in targets:
        for n in re.findall(r"^\s*Theorem (C\d+_\w+)", open(os.path.join(src, f)).read(), re.M):
            all_of.setdefault(n, f)
    for n, f in all_of.items():
        if f in broken:
            failed.add(n)
    surv = sorted(n for n in all_of if n not in failed and n.split("_")[0] in mut["props"])
    return {"definition": mut["def"], "edit": mut.get("edit") or "%s -> %s" % (mut["old"], mut["new"]), "claim": mut["claim"],
            "failed": sorted(n for n in failed if re.match(r"C\d+_", n)), "survived_of_claim": surv,
            "broken_files": sorted(broken), "admitted_lemmas": len(admitted)}

if __name__ == "__main__":
    scratch = sys.argv[1]
    env = []
    for l in open(os.path.join(root, "rocq", "_CoqProject")):
        l = l.strip()
        if l.startswith("-arg"):
            env += l.split()[1:]
    for mut in json.load(open(sys.argv[2])):
        t0 = time.time()
        r = run(scratch, mut, env)
        r["seconds"] = round(time.time() - t0)
        print(json.dumps(r), flush=True)
