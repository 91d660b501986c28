#!/usr/bin/env python3
"""Seed one realistic bug at a time into a scratch copy of the model and rebuild.

usage: mutate.py MUTANTS.json RESULTS.jsonl [first-index]
MUTANTS.json: list of {"def": ..., "file": ..., "old": ..., "new": ..., "claim": ...}.
For each one the scratch copy is reset, the edit applied and `make -k` run; the first failing
declaration of each failing file is reported, and the Props_* files that no longer build."""
import json, os, re, subprocess, sys, shutil
SRC = os.environ.get('MUT_SRC', '/verif/rocq'); WORK = '/tmp/mut/work'
def sh(c): return subprocess.run(c, shell=True, capture_output=True, text=True)
def reset():
    os.makedirs('/tmp/mut', exist_ok=True)
    sh(f'(rm -rf {WORK}; cp -a {SRC} {WORK})')
def decl_at(path, line):
    name = None
    for i, l in enumerate(open(path), 1):
        if i > line: break
        m = re.match(r'\s*(?:Local )?(Theorem|Lemma|Corollary|Example|Definition|Fixpoint|Fact|Record)\s+(\w+)', l)
        if m: name = m.group(2)
    return name
def main():
    muts = json.load(open(sys.argv[1])); out = sys.argv[2]; k0 = int(sys.argv[3]) if len(sys.argv) > 3 else 0
    jobs = os.environ.get('MUT_J', '2')
    for k, m in enumerate(muts):
        if k < k0: continue
        reset()
        p = f'{WORK}/theories/{m["file"]}.v'; s = open(p).read()
        n = s.count(m['old'])
        if n != m.get('count', 1):
            print(k, 'BAD EDIT', n, m['def']); continue
        open(p, 'w').write(s.replace(m['old'], m['new']))
        sh(f'cd {WORK} && coq_makefile -f _CoqProject -o Makefile >/dev/null 2>&1')
        r = sh(f'cd {WORK} && timeout 1500 make -k -j{jobs} 2>&1')
        fails = []
        for f, l in re.findall(r'File "\./theories/(\w+)\.v", line (\d+), characters [\d-]+:\nError', r.stdout):
            fails.append(f'{f}.{decl_at(f"{WORK}/theories/{f}.v", int(l))}')
        props = sorted(f[:-2] for f in os.listdir(f'{WORK}/theories') if f.startswith('Props_') and f.endswith('.v'))
        broken = []
        for f in props:
            vo = f'{WORK}/theories/{f}.vo'
            if sh(f'cd {WORK} && make -q theories/{f}.vo').returncode: broken.append(f)
        rec = dict(m, failed=fails, unbuilt_props=broken, survived=not fails)
        open(out, 'a').write(json.dumps(rec) + '\n')
        print(k, 'SURVIVED' if not fails else 'killed', m['def'], '|', m['new'][:60], '|', fails[:4], flush=True)
main()
