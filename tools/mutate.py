#!/usr/bin/env python3
"""Seeded-bug runs. Usage: mutate.py batch.json
Each entry: {"definition", "file", "old", "new", "edit", "claim", "expect": [theorem, ...], "targets": [Prop file, ...]}; without targets everything is
built, with targets only these property files (and "failed" speaks of these only).
The edit is applied in a scratch copy. Proofs that break are replaced by Admitted until the tree builds again;
the manifest theorems that then rest on such a proof are the ones that failed. Results go to stdout (JSON lines)."""
import json, os, re, shutil, subprocess, sys, time
SRC = os.environ.get("SNAP", "/verif/rocq"); TMP = os.environ.get("SCRATCH", "/tmp/mut")
KW = r'^\s*(?:Local\s+|Global\s+)?(Lemma|Theorem|Corollary|Example|Fact|Remark)\s+([A-Za-z0-9_\']+)'

def manifest():
    m = json.load(open("/verif/MANIFEST.json"))
    return [t for c in m["claims"] for t in c["theorems"]]

def run(cmd, timeout=1500):
    p = subprocess.run(cmd, shell=True, cwd=TMP, capture_output=True, text=True, timeout=timeout)
    return p.returncode, p.stdout + p.stderr

def enclosing(path, line):
    ls = open(path).read().split("\n")
    for i in range(line - 1, -1, -1):
        m = re.match(KW, ls[i])
        if m: return i, m.group(2), ls
    return None, None, ls

def admit(path, line):
    i, name, ls = enclosing(path, line)
    if i is None: return None
    j = i
    while not re.search(r'\bProof\b', ls[j]): j += 1
    if line - 1 < j: return "STATEMENT:" + name
    k = j
    while not re.search(r'\b(Qed|Defined|Admitted)\.', ls[k]): k += 1
    if line - 1 > k: return "OTHER:" + name
    if 'Admitted.' in ls[k]: return "AGAIN:" + name
    head = ls[j][:re.search(r'\bProof\b', ls[j]).start()]
    ls[j:k + 1] = [head + "Proof. Admitted."] + [""] * (k - j)
    open(path, "w").write("\n".join(ls))
    return name

def one(b):
    subprocess.run(f"rm -rf {TMP} && cp -a {SRC} {TMP}", shell=True, check=True)
    p = f"{TMP}/theories/{b['file']}"
    start = time.time()
    s = open(p).read()
    if s.count(b["old"]) != 1: return {"error": f"pattern found {s.count(b['old'])} times", **b}
    open(p, "w").write(s.replace(b["old"], b["new"]))
    broken, bad = [], None
    for _ in range(80):
        rc, out = run("timeout 1200 make -j3 -k " + " ".join(f"theories/{t}.vo" for t in b.get("targets", [])) + " 2>&1")
        if rc == 0: break
        errs = re.findall(r'File "\./(theories/\w+\.v)", line (\d+), characters [\d-]+:\nError', out)
        if not errs: bad = "no error location: " + out[-400:]; break
        done = set(); ok = True
        for f, l in errs:
            if f in done: continue
            done.add(f)
            n = admit(f"{TMP}/{f}", int(l))
            if n is None or ":" in n: bad = f"{f}:{l} {n}"; ok = False
            else: broken.append(n)
        if not ok: break
    res = {"definition": b["definition"], "edit": b["edit"], "claim": b["claim"], "broken_lemmas": broken}
    if bad: res["stopped"] = bad; res["failed"] = None; return res
    # the property files that had to be compiled again
    props = [x[:-2] for x in sorted(os.listdir(f"{TMP}/theories")) if x.startswith("Prop") and x.endswith(".v") and x[:-2] in b.get("targets", [x[:-2]]) and os.path.getmtime(f"{TMP}/theories/{x}o") > start]
    with open(f"{TMP}/theories/ZZcheck.v", "w") as f:
        for q in props: f.write(f"From Verif Require {q}.\n")
        for q in props:
            for n in re.findall(r'^Theorem\s+(\w+)', open(f"{TMP}/theories/{q}.v").read(), re.M):
                f.write(f'Goal True. idtac "@@ {n}". exact I. Qed.\nPrint Assumptions {q}.{n}.\n')
    rc, out = run("coqc -Q theories Verif theories/ZZcheck.v 2>&1; rm -f theories/ZZcheck.*")
    failed = []
    for part in out.split("@@ ")[1:]:
        n = part.split()[0]
        names = set(re.findall(r'^([\w\.\']+) :', part, re.M)) | set(re.findall(r'^([\w\.\']+)$', part, re.M))
        if n in broken or any(x.split(".")[-1] in broken for x in names): failed.append(n)
    res["failed"] = failed
    exp = b.get("expect", [])
    res["missed"] = [e for e in exp if not any(f.startswith(e) for f in failed)]
    return res

if __name__ == "__main__":
    for b in json.load(open(sys.argv[1])):
        try: r = one(b)
        except Exception as e: r = {"error": repr(e), **b}
        print(json.dumps(r), flush=True)
