#!/usr/bin/env python3
"""Mutation testing of the model.  usage: mutate.py mutants.json [log.jsonl]
mutants.json: [{"file": "PatternModel.v", "definition": "...", "old": "...", "new": "...", "edit": "...", "claim": "..."}]
For each mutant a scratch copy of rocq/theories is edited; every statement that no longer checks is removed and the
file retried, so that the final list contains all theorems that fail, directly or because they use a failed lemma."""
import sys, re, json, os, shutil, subprocess, tempfile, pathlib
root = pathlib.Path(__file__).resolve().parent.parent
th = root / "rocq/theories"
order = [l.strip().split("/")[-1] for l in (root / "rocq/_CoqProject").read_text().splitlines() if l.strip().endswith(".v")]
deps = {}
for f in order:
    t = (th / f).read_text()
    d = set()
    for m in re.finditer(r"From Verif Require (?:Import|Export)\s+([^.]*)\.", t):
        d |= {x + ".v" for x in m.group(1).split()}
    deps[f] = d
def dependents(f):
    s = {f}
    for g in order:
        if deps[g] & s: s.add(g)
    return [g for g in order if g in s]
START = re.compile(r"^[ \t]*(?:#\[[^\]]*\]\s*)?(?:Local |Global )?(Lemma|Theorem|Example|Corollary|Definition|Fixpoint|Inductive|Record|Remark|Fact|Instance|Notation|Ltac)\s+([\w']+)", re.M)
STOP = re.compile(r"^[ \t]*(?:End|Section|Context|Variables?|Hypothes[ie]s|Arguments|Global Arguments|Local Open|Open|Set|Module|From|Require|Import|Export)\b", re.M)
def statements(text):
    ms = list(START.finditer(text)); res = []
    for i, m in enumerate(ms):
        b = ms[i+1].start() if i+1 < len(ms) else len(text)
        x = STOP.search(text, m.end(), b)
        res.append((m.start(), x.start() if x else b, m.group(1), m.group(2)))
    return res
def run(mut, scratch):
    w = pathlib.Path(scratch)
    if w.exists(): shutil.rmtree(w)
    shutil.copytree(th, w)
    for p in w.glob("*Props.v"): p.write_text(re.sub(r"^Print Assumptions .*$", "", p.read_text(), flags=re.M))
    f = w / mut["file"]
    t = f.read_text()
    n = t.count(mut["old"])
    if n != 1: return {"error": "old text occurs %d times" % n}
    f.write_text(t.replace(mut["old"], mut["new"]))
    failed = []
    todo = dependents(mut["file"])
    for g in todo:
        for x in w.glob(g[:-2] + ".vo*"): x.unlink()
    for g in todo:
        for _ in range(400):
            r = subprocess.run(["timeout", str(mut.get("timeout", 100)), "coqc", "-q", "-Q", str(w), "Verif", str(w / g)], capture_output=True, text=True)
            if r.returncode == 0: break
            m = re.search(r'File "[^"]*", line (\d+), characters (\d+)', r.stderr)
            text = (w / g).read_text()
            if not m and r.returncode == 124:
                # a proof that no longer ends counts as failed: find the sentence being processed
                r = subprocess.run(["timeout", str(mut.get("timeout", 100)), "stdbuf", "-oL", "coqc", "-q", "-time", "-Q", str(w), "Verif", str(w / g)], capture_output=True, text=True)
                ends = re.findall(r"^Chars \d+ - (\d+)", r.stdout, re.M)
                if not ends: return {"error": "timeout", "failed": failed}
                pos = int(ends[-1]) + 1
            elif not m:
                return {"error": "no location: " + r.stderr[-300:], "failed": failed}
            else:
                ln = int(m.group(1)); pos = sum(len(x) + 1 for x in text.split("\n")[:ln-1]) + int(m.group(2))
            st = [s for s in statements(text) if s[0] <= pos < s[1]]
            if not st: return {"error": "error outside statements in %s: %s" % (g, r.stderr[-300:]), "failed": failed}
            a, b, kind, name = st[0]
            if g == mut["file"] and kind in ("Definition", "Fixpoint", "Inductive", "Record"):
                return {"error": "mutant does not compile: " + r.stderr[-300:]}
            # remove the statement and, transitively, everything that mentions it
            gone = {name}
            for h in todo[todo.index(g):]:
                ht = (w / h).read_text(); keep = []; pos0 = 0
                for (a2, b2, k2, n2) in statements(ht):
                    keep.append(ht[pos0:a2]); pos0 = b2
                    body = ht[a2:b2]
                    if (h == g and n2 == name) or (gone & set(re.findall(r"[\w']+", body)) and k2 in ("Lemma", "Theorem", "Example", "Corollary", "Remark", "Fact")):
                        gone.add(n2); failed.append((h, k2, n2))
                    else:
                        keep.append(body)
                keep.append(ht[pos0:])
                (w / h).write_text("".join(keep))
        else:
            return {"error": "too many failures", "failed": failed}
    return {"failed": failed}
if __name__ == "__main__":
    muts = json.load(open(sys.argv[1]))
    log = open(sys.argv[2], "a") if len(sys.argv) > 2 else None
    for i, mut in enumerate(muts):
        r = run(mut, sys.argv[3] if len(sys.argv) > 3 else "/tmp/mut_scratch")
        if "error" in r:
            print(i, mut["edit"], "ERROR", r["error"]); continue
        thms = [n for g, k, n in r["failed"] if k == "Theorem"]
        exs = [n for g, k, n in r["failed"] if k == "Example"]
        print(i, mut["definition"], "|", mut["edit"], "->", thms or ("SURVIVED" + (" (examples fail: %s)" % exs if exs else "")), flush=True)
        if log:
            rec = {"definition": mut["definition"], "edit": mut["edit"], "claim": mut["claim"], "theorems_failed": thms, "theorems_tightened": mut.get("tightened", [])}
            if not thms: rec["note"] = mut.get("note", "survived")
            log.write(json.dumps(rec) + "\n"); log.flush()
