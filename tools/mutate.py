#!/usr/bin/env python3
"""Seeded-bug testing.  Reads a JSON list of {"def","file","old","new","edit","claim"} and for each:
copies rocq/ (with its compiled files) to a scratch directory, replaces "old" by "new" in the model
file, and rebuilds the property files of the claims named in "claim".  Whenever a proof no longer goes
through it is replaced by Admitted (in the scratch copy only) and the build goes on, until every claim
named has a theorem resting on such a proof (and every theorem listed under "theorems" does, if the
edit has that field), or everything builds.  Which theorem rests on which proof
is read off the .glob files of the unedited build.  Appends one line per edit to seeded/LOG.jsonl; its
"failed" lists the theorems known to fail by then.
Usage: SRC=built-copy-of-rocq mutate.py edits.json scratch-directory"""
import json, os, re, shutil, subprocess, sys, bisect
root = os.path.dirname(os.path.dirname(os.path.abspath(__file__)))
src = os.environ.get('SRC', root + '/rocq')
def sh(cmd, **k): return subprocess.run(cmd, shell=True, capture_output=True, text=True, **k)

def graph():
    """users[(module, name)] = the (module, name)s whose text mentions it."""
    users = {}
    for g in os.listdir(f'{src}/theories'):
        if not g.endswith('.glob'): continue
        mod = g[:-5]
        defs, refs = [], []
        for l in open(f'{src}/theories/{g}', errors='replace'):
            m = re.match(r'(?:prf|def|ind|rec|coind) (\d+):\d+ \S+ (\S+)$', l)
            if m: defs.append((int(m.group(1)), m.group(2))); continue
            m = re.match(r'R(\d+):\d+ Verif\.(\w+) \S+ (\S+) (\w+)$', l)
            if m and m.group(4) in ('thm', 'def', 'prfax'): refs.append((int(m.group(1)), m.group(2), m.group(3)))
        defs.sort()
        pos = [d[0] for d in defs]
        for p, m, n in refs:
            i = bisect.bisect_right(pos, p) - 1
            if i >= 0: users.setdefault((m, n), set()).add((mod, defs[i][1]))
    return users
users = graph()
props = {}
for g in os.listdir(f'{src}/theories'):
    if re.fullmatch(r'Props\w+\.v', g):
        for n in re.findall(r'^Theorem (\w+)', open(f'{src}/theories/{g}').read(), re.M): props[(g[:-2], n)] = n

def reach(broken):
    seen, todo = set(), list(broken)
    while todo:
        x = todo.pop()
        if x in seen: continue
        seen.add(x)
        todo += users.get(x, ())
    return sorted(props[x] for x in seen if x in props)

def run(e, scratch):
    shutil.rmtree(scratch, ignore_errors=True)
    sh(f'cp -a {src} {scratch}')
    p = f'{scratch}/theories/{e["file"]}'
    s = open(p).read()
    if s.count(e['old']) != 1: return None, f'old text occurs {s.count(e["old"])} times'
    open(p, 'w').write(s.replace(e['old'], e['new']))
    sh('coq_makefile -f _CoqProject -o Makefile', cwd=scratch)
    ids = re.findall(r'C\d+', e['claim'])
    mods = sorted({m for (m, n) in props if any(n.startswith(c + '_') for c in ids)})
    admitted = []
    for _ in range(400):
        r = sh('make -j2 ' + ' '.join(f'theories/{m}.vo' for m in mods), cwd=scratch)
        if r.returncode == 0: break
        ms = list(re.finditer(r'File "\./theories/(\w+)\.v", line (\d+), characters [-\d]+:\nError', r.stderr))
        if not ms: return None, r.stderr[-2000:]
        for m in ms:
            f, line = m.group(1), int(m.group(2))
            q = f'{scratch}/theories/{f}.v'
            t = open(q).read().split('\n')
            i = line - 1
            while i >= 0 and not re.match(r'\s*(Lemma|Theorem|Example|Corollary|Fact|Remark)\b', t[i]): i -= 1
            if i < 0: return None, f'{f}:{line}: {r.stderr[-500:]}'
            name = re.match(r'\s*\w+\s+(\w+)', t[i]).group(1)
            j = i
            while j < len(t) and not re.search(r'\b(Qed|Defined|Admitted)\.\s*$', t[j]): j += 1
            if j >= len(t) or 'Admitted' in t[j] or j < line - 1: return None, f'{f}:{line} {name}: {r.stderr[-800:]}'
            k = i
            while not re.search(r'\bProof\b', t[k]): k += 1
            pre = t[k][:re.search(r'\bProof\b', t[k]).start()]
            t[k:j + 1] = [pre + 'Proof. Admitted.'] + [''] * (j - k)
            open(q, 'w').write('\n'.join(t))
            admitted.append((f, name))
        failed = reach(admitted)
        if ids and all(any(n.startswith(c + '_') for n in failed) for c in ids) and set(e.get('theorems', [])) <= set(failed): break
    else: return None, 'too many steps'
    failed = reach(admitted)
    ex = [n for f, n in admitted if f.startswith('Props') and n not in failed]
    return {'failed': failed, 'examples': ex, 'admitted': ['.'.join(a) for a in admitted]}, None

if __name__ == '__main__':
    edits = json.load(open(sys.argv[1]))
    scratch = sys.argv[2] if len(sys.argv) > 2 else '/tmp/mut/rocq'
    os.makedirs(os.path.dirname(scratch), exist_ok=True)
    for e in edits:
        res, err = run(e, scratch)
        if err: print('ERROR', e['def'], '|', e['edit'], '|', err, flush=True); continue
        print('==', e['def'], '|', e['edit'], '|', e['claim'])
        print('   broken proofs:', len(res['admitted']), res['admitted'][:6])
        print('   failed:', len(res['failed']), res['failed'][:12], 'examples', res['examples'][:6])
        claim_ids = re.findall(r'C\d+', e['claim'])
        ok = all(any(t.startswith(c + '_') for t in res['failed']) for c in claim_ids) and set(e.get('theorems', [])) <= set(res['failed'])
        if not ok: print('   !!!! NOT DETECTED for', claim_ids)
        sys.stdout.flush()
        if e.get('dry'): continue
        with open(f'{root}/seeded/LOG.jsonl', 'a') as f:
            f.write(json.dumps({'definition': f'{e["file"]}: {e["def"]}', 'edit': e['edit'], 'claim': e['claim'],
              'failed': res['failed'], 'failed_examples': res['examples'], 'detected': ok, 'tightened': e.get('tightened', [])}) + '\n')
