#!/usr/bin/env python3
"""Seeded-bug tests: apply one edit to a scratch copy of the model, rebuild, and find which
theorems stop being provable.  A proof that fails is replaced by Admitted in the scratch copy
so that the build can go on; the failed theorems are those whose Print Assumptions then lists
an admitted lemma.
usage: mutate.py SPEC.json   (list of {file, def, old, new, edit, claim})"""
import json, os, re, shutil, subprocess, sys
BASE = os.environ.get('MUTDIR', '/tmp/mut')
SRC = BASE + '/src/rocq'; DST = BASE + '/rocq'; LOG = '/verif/seeded/LOG.jsonl'   # SRC: snapshot of HEAD

def order():
    return [l.strip() for l in open(SRC + '/_CoqProject') if l.strip().endswith('.v')]
def deps():
    out = subprocess.run(['coqdep', '-Q', 'theories', 'Verif'] + order(), cwd=SRC, capture_output=True, text=True).stdout
    d = {}
    for line in out.splitlines():
        m = re.match(r'(\S+)\.vo .*?: (.*)', line)
        if m:
            d[m.group(1) + '.v'] = [x[:-1] for x in m.group(2).split() if x.endswith('.vo')]
    return d
def theorems():
    man = json.load(open(BASE + '/src/MANIFEST.json'))
    return {t: c['property'] for c in man['claims'] for t in c['theorems']}

def coqc(f):
    try:
        return subprocess.run(['timeout', '400', 'coqc', '-Q', 'theories', 'Verif', f], cwd=DST, capture_output=True, text=True)
    except Exception as e:
        raise

def run(spec):
    f = 'theories/' + spec['file']
    path = DST + '/' + f
    src = open(path).read()
    if src.count(spec['old']) != 1:
        print('BAD EDIT (%d matches): %s' % (src.count(spec['old']), spec['edit'])); return None
    open(path, 'w').write(src.replace(spec['old'], spec['new']))
    d = deps(); dirty = {f}; failed = []; broken = None
    touched = {f: src}
    for g in order():
        if g not in dirty and not any(x in dirty for x in d.get(g, [])): continue
        dirty.add(g)
        gp = DST + '/' + g
        if g not in touched: touched[g] = open(gp).read()
        for _ in range(80):
            r = coqc(g)
            if r.returncode == 0: break
            m = re.search(r'line (\d+), characters', r.stderr)
            if not m:
                if r.returncode == 124 or 'imeout' in r.stderr: broken = g + ': timeout'
                else: broken = g + ': ' + r.stderr[-300:]
                break
            ln = int(m.group(1)); lines = open(gp).read().split('\n')
            i = ln - 1
            while i >= 0 and not re.match(r'\s*Proof\.', lines[i]): i -= 1
            j = max(i, 0)
            while j < len(lines) and not re.search(r'(Qed|Defined)\.\s*$', lines[j]): j += 1
            if i < 0 or j < ln - 1 or j >= len(lines):
                broken = g + ': ' + r.stderr[-400:]; break
            k = i
            while not re.match(r'\s*(Local |Global )?(Lemma|Theorem|Example|Corollary|Fact|Remark|Definition|Instance)\s+(\w+)', lines[k]): k -= 1
            name = re.match(r'\s*(Local |Global )?\w+\s+(\w+\'?)', lines[k]).group(2)
            failed.append(g[9:] + ':' + name)
            lines[i:j+1] = ['Admitted.'] + [''] * (j - i)
            open(gp, 'w').write('\n'.join(lines))
        if broken: break
    res = []
    if not broken:
        props = sorted({g[9:-2] for g in order() if g.startswith('theories/Prop') and g in dirty})
        th = theorems()
        body = ''.join('From Verif Require %s.\n' % p for p in props)
        where = {}
        for p in props:
            for t in re.findall(r'^\s*Theorem (\w+)', open(SRC + '/theories/%s.v' % p).read(), re.M): where[t] = p
        for t in [t for t in th if t in where]:
            body += 'Check "@@%s"%%string. Print Assumptions %s.%s.\n' % (t, where[t], t)
        open(DST + '/chk.v', 'w').write('From Coq Require Import String.\n' + body)
        r = coqc('chk.v')
        if r.returncode: broken = 'chk: ' + r.stderr[-300:]
        adm = {x.split(':')[1] for x in failed}
        for part in r.stdout.split('"@@')[1:]:
            t = part.split('"')[0]
            ax = re.findall(r'^([\w.]+) :', part.split('\n', 1)[1], re.M)
            ax += re.findall(r'^([\w.]+)$', part.split('\n', 1)[1], re.M)
            if any(x.split('.')[-1] in adm for x in ax): res.append(t)
    for g, s in touched.items(): open(DST + '/' + g, 'w').write(s)
    return {'definition': spec['file'][:-2] + '.' + spec['def'], 'edit': spec['edit'], 'claim': spec['claim'],
            'theorems_failed': res, 'lemmas_failed': failed, 'build_stopped': broken, 'tightened': spec.get('tightened', [])}, dirty

def main():
    specs = json.load(open(sys.argv[1])) if len(sys.argv) > 1 else json.load(sys.stdin)
    dry = '--dry' in sys.argv
    if os.path.exists(BASE): shutil.rmtree(BASE)
    os.makedirs(BASE + '/src')
    subprocess.run('git -C /verif archive HEAD | tar x -C %s/src' % BASE, shell=True, check=True)
    shutil.copytree(SRC, DST)
    if os.environ.get('REUSE'):   # compiled files of /verif/rocq, when it is built and equal to HEAD
        subprocess.run('cp /verif/rocq/theories/*.vo theories/ && touch -t $(date +%Y%m%d%H%M.%S) theories/*.vo', shell=True, cwd=DST, check=True)
    subprocess.run('coq_makefile -f _CoqProject -o Makefile && make -j4', shell=True, cwd=DST, capture_output=True)
    for s in specs:
        out = run(s)
        if out is None: continue
        rec, dirty = out
        print(json.dumps(rec)[:1500], flush=True)
        if not dry:
            with open(LOG, 'a') as f: f.write(json.dumps(rec) + '\n')
        # rebuild the clean versions
        for g in order():
            if g in dirty: coqc(g)
main()
