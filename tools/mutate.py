#!/usr/bin/env python3
"""Seeded-bug runs: mutate.py FILE.json  (list of {file, def, old, new, edit, claim}).
Each mutant is applied to a scratch copy of rocq/ (outside /verif), rebuilt with make -k, and the
first failing lemma/theorem of every file that no longer compiles is recorded in seeded/LOG.jsonl."""
import json, os, re, shutil, subprocess, sys
SRC = '/tmp/mutsrc/rocq'; DST = '/tmp/mut/rocq'
def enclosing(path, line):
    name = None
    for i, l in enumerate(open(path), 1):
        if i > line: break
        m = re.match(r'\s*(?:Local\s+)?(?:Lemma|Theorem|Example|Corollary|Fact|Definition|Fixpoint|Remark)\s+([A-Za-z0-9_\']+)', l)
        if m: name = m.group(1)
    return name
def run(m):
    os.makedirs('/tmp/mut', exist_ok=True)
    subprocess.run(['rsync', '-a', '--delete', SRC + '/', DST + '/'], check=True) if shutil.which('rsync') else (
        shutil.rmtree(DST, ignore_errors=True), subprocess.run(['cp', '-a', SRC, DST], check=True))
    p = f"{DST}/theories/{m['file']}"
    s = open(p).read()
    if s.count(m['old']) < 1: return {'error': 'old text not found'}
    s = s.replace(m['old'], m['new'], m.get('count', 1))
    open(p, 'w').write(s)
    subprocess.run('coq_makefile -f _CoqProject -o Makefile', shell=True, cwd=DST, stdout=subprocess.DEVNULL)
    r = subprocess.run('timeout 1500 make -k -j3', shell=True, cwd=DST, capture_output=True, text=True)
    out = r.stdout + r.stderr
    fails = []
    for f, l in re.findall(r'File "\./(theories/[A-Za-z0-9]+\.v)", line (\d+), characters [^\n]*\n(?=Error|.*\nError)', out):
        fails.append((os.path.basename(f)[:-2], enclosing(f'{DST}/{f}', int(l))))
    props = [f[:-2] for f in sorted(os.listdir(DST + '/theories')) if f.startswith('Prop') and f.endswith('.v')
             and not (os.path.exists(f'{DST}/theories/{f}o') and os.path.getmtime(f'{DST}/theories/{f}o') >= os.path.getmtime(p) - 1e-6
                      or f'theories/{f}o' not in out and False)]
    # a Prop file whose .vo is older than the mutated file but was not rebuilt because it does not depend on it
    props = [q for q in props if re.search(r'\b' + re.escape(m['file'][:-2]) + r'\b', deps(q))]
    return {'fails': fails, 'unbuilt': props, 'rc': r.returncode}
def deps(f, seen=None):
    seen = set() if seen is None else seen
    if f in seen: return ''
    seen.add(f)
    t = f
    try: s = open(f'{DST}/theories/{f}.v').read()
    except FileNotFoundError: return ''
    for l in re.findall(r'From Verif Require (?:Import|Export) ([^.]*)\.', s):
        for d in l.split(): t += ' ' + deps(d, seen)
    return t + ' '
if __name__ == '__main__':
    for m in json.load(open(sys.argv[1])):
        res = run(m)
        if 'error' in res:
            print('!!', m['def'], res['error']); continue
        killed = bool(res['fails'])
        entry = {'definition': f"{m['file']}: {m['def']}", 'edit': m['edit'], 'claim_broken': m['claim'],
                 'theorems_failed': [f'{a}.{b}' for a, b in res['fails']], 'property_files_not_rebuilt': res['unbuilt'],
                 'theorems_tightened': m.get('tightened', [])}
        print('KILLED ' if killed else 'SURVIVED', m['def'], '|', m['edit'], '->', entry['theorems_failed'], flush=True)
        if killed or m.get('log_survivor'):
            open('/verif/seeded/LOG.jsonl', 'a').write(json.dumps(entry) + '\n')
