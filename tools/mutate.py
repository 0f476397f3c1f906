#!/usr/bin/env python3
"""Seeded wrong programs: edit a definition of the model in a scratch copy, rebuild, and list
the property theorems that are no longer proved.

usage: mutate.py mutants.py [--only id,id] [--skip LOG] [--out LOG] [--jobs N] [--par N]
Each mutant is a dict: id, file, definition, old, new, claim, expect (list of property ids).
When a proof fails it is replaced by Admitted (with the section variables the original proof
used) and the build goes on; a theorem counts as failed when its proof was so replaced or when
Print Assumptions shows that it rests on a replaced lemma."""
import sys, os, re, subprocess, shutil, json, time, importlib.util
from concurrent.futures import ThreadPoolExecutor, wait, FIRST_COMPLETED
SRC = '/verif/rocq/theories'
BASE = '/tmp/mut/base'      # compiled copy of the original
USING = '/tmp/mut/using.json'
TMO = 240
MEM = 5 * 2**30
START = re.compile(r'^\s*(?:Local\s+|Global\s+|#\[.*?\]\s*)?(Lemma|Theorem|Example|Corollary|Fact|Remark|Instance|Definition|Fixpoint)\s+([\w\']+)', re.M)

def order(d):
    files = [l.strip() for l in open(os.path.join(d, '_CoqProject')) if l.strip().endswith('.v')]
    deps = {}
    out = subprocess.run(['coqdep', '-Q', 'theories', 'Verif'] + files, cwd=d, capture_output=True, text=True).stdout
    for l in out.splitlines():
        m = re.match(r'theories/(\w+)\.vo .*?: (.*)', l)
        if m:
            deps[m.group(1)] = [x for x in re.findall(r'theories/(\w+)\.vo\b', m.group(2)) if x != m.group(1)]
    return deps

def compile_(d, f, extra=()):
    try:
        r = subprocess.run(['timeout', str(TMO), 'prlimit', f'--as={MEM}', 'coqc', '-Q', 'theories', 'Verif', *extra, f'theories/{f}.v'],
                           cwd=d, capture_output=True, text=True)
    except Exception as e:
        return 99, '', str(e)
    return r.returncode, r.stdout, r.stderr

def prepare(jobs):
    """compiled base and the table of section variables used"""
    stamp = subprocess.run('cat /verif/rocq/theories/*.v | md5sum', shell=True, capture_output=True, text=True).stdout
    if os.path.exists(BASE + '/stamp') and open(BASE + '/stamp').read() == stamp and os.path.exists(USING):
        return
    os.makedirs(BASE + '/theories', exist_ok=True)
    shutil.copy('/verif/rocq/_CoqProject', BASE)
    using, todo = json.load(open(USING)) if os.path.exists(USING) else {}, set()
    for f in os.listdir(SRC):
        if not f.endswith('.v'): continue
        a, b = os.path.join(SRC, f), os.path.join(BASE, 'theories', f)
        if not os.path.exists(b) or open(a).read() != open(b).read() or not os.path.exists(b + 'o'):
            shutil.copy(a, b); todo.add(f[:-2])
    deps = order(BASE)
    todo &= set(deps)
    while True:
        new = {f for f in deps if f not in todo and todo & set(deps[f])}
        if not new: break
        todo |= new
    for f in todo:
        try: os.remove(f'{BASE}/theories/{f}.vo')
        except FileNotFoundError: pass
    using = {k: v for k, v in using.items() if k.split('.')[0] not in todo}
    logs = {}
    def one(f):
        rc, o, e = compile_(BASE, f, ['-set', 'Suggest Proof Using'])
        if rc: print('BASE FAILS', f, e[-500:]); sys.exit(1)
        logs[f] = o + e
    build(BASE, todo, one, jobs)
    for f, t in logs.items():
        t = ' '.join(t.split())
        for m in re.finditer(r'The proof of ([\w\']+) should start with one of the following commands: Proof using ?([^.]*)\.', t):
            using[f + '.' + m.group(1)] = m.group(2).strip()
    json.dump(using, open(USING, 'w'))
    open(BASE + '/stamp', 'w').write(stamp)

def build(d, todo, one, jobs):
    deps = order(d)
    pending = dict((f, set(x for x in deps[f] if x in todo)) for f in todo)
    running, done = {}, set()
    with ThreadPoolExecutor(jobs) as ex:
        while pending or running:
            for f in sorted(f for f in pending if pending[f] <= done):
                running[ex.submit(one, f)] = f; del pending[f]
            if not running: break
            fin, _ = wait(running, return_when=FIRST_COMPLETED)
            for x in fin:
                x.result(); done.add(running.pop(x))

def admit(d, f, line, using):
    """replace the proof around [line] by Admitted; returns the name"""
    p = f'{d}/theories/{f}.v'; s = open(p).read()
    lines = s.split('\n'); pos = sum(len(l) + 1 for l in lines[:line - 1])
    eol = pos + len(lines[line - 1])
    start = None
    for m in START.finditer(s):
        if m.start() <= eol: start = m
        else: break
    if start is None: return None
    pr = re.compile(r'\bProof\b[^.]*\.').search(s, start.end())
    en = re.compile(r'\b(Qed|Defined|Admitted)\.').search(s, start.end())
    if not en or not pr or pr.start() > en.start() : return None
    if pos > en.end() : return None
    name = start.group(2)
    u = using.get(f + '.' + name)
    head = f'Proof using {u}.' if u else 'Proof.'
    new = s[:pr.start()] + head + ' Admitted.' + s[en.end():]
    open(p, 'w').write(new)
    return name

def run(mu, jobs, using):
    d = f'/tmp/mut/w_{mu["id"]}'
    shutil.rmtree(d, ignore_errors=True)
    subprocess.run(['cp', '-a', BASE, d], check=True)
    p = f'{d}/theories/{mu["file"]}.v'; s = open(p).read()
    if s.count(mu['old']) != 1:
        return dict(error=f'old text occurs {s.count(mu["old"])} times')
    open(p, 'w').write(s.replace(mu['old'], mu['new']))
    deps = order(d); todo = {mu['file']}
    ch = True
    while ch:
        ch = False
        for f, x in deps.items():
            if f not in todo and todo & set(x): todo.add(f); ch = True
    # only the files of the claims the edit should break (all of them when it names none)
    goal = [f for f in deps if f.startswith('Props') and any(re.search(r'^Theorem %s_' % c, open(f'{d}/theories/{f}.v').read(), re.M) for c in mu['expect'])]
    if goal:
        need, new = set(goal), set(goal)
        while new:
            new = {g for f in new for g in deps[f]} - need; need |= new
        todo &= need
    admitted, bad, logs = [], [], {}
    def one(f):
        for x in ('.vo', '.vos', '.vok', '.glob'):
            try: os.remove(f'{d}/theories/{f}{x}')
            except FileNotFoundError: pass
        if any(g in bad for g in deps[f]): bad.append(f); return
        for _ in range(150):
            rc, o, e = compile_(d, f)
            if rc == 0:
                logs[f] = o; return
            m = re.search(r'line (\d+), characters', e)
            if rc == 124 or (rc and not m) or 'Out of memory' in e or 'Stack overflow' in e:   # timeout: find the sentence
                r = subprocess.run(['timeout', str(TMO), 'prlimit', f'--as={MEM}', 'coqc', '-time', '-Q', 'theories', 'Verif', f'theories/{f}.v'], cwd=d, capture_output=True, text=True)
                cs = re.findall(r'Chars (\d+) - (\d+)', r.stdout)
                b = open(f'{d}/theories/{f}.v', 'rb').read(); off = int(cs[-1][1]) if cs else 0
                line = b[:off].count(b'\n') + 1
                if b[off:off+1] == b'\n': line += 1
            elif m: line = int(m.group(1))
            else: bad.append(f); logs[f] = e; return
            n = admit(d, f, line, using)
            if n is None or (f, n) in admitted:
                bad.append(f); logs[f] = f'line {line}: ' + e[-600:]; return
            admitted.append((f, n))
    build(d, todo, one, jobs)
    failed = set()
    adm = {n for _, n in admitted}
    for f in todo:
        if not f.startswith('Props'): continue
        src = open(f'{d}/theories/{f}.v').read()
        ths = re.findall(r'^Theorem (\w+)', src, re.M)
        if f in bad: continue
        for t in ths:
            if t in adm: failed.add(t)
        # outputs of Print Assumptions in order
        pas = re.findall(r'^Print Assumptions (\w+)', src, re.M)
        blocks = re.split(r'^(?=Axioms:|Closed under)', logs.get(f, ''), flags=re.M)
        blocks = [b for b in blocks if b.startswith('Axioms:') or b.startswith('Closed')]
        for t, b in zip(pas, blocks):
            names = {x.split('.')[-1] for x in re.findall(r'^([\w.\']+)(?=\s*:|\s*$)', b, re.M)}
            if names & adm: failed.add(t)
        if len(pas) != len(blocks): bad.append(f + ' (assumption blocks)')
    shutil.rmtree(d, ignore_errors=True)
    return dict(admitted=[f'{f}.{n}' for f, n in admitted], bad=bad, badlog={f: logs.get(f, '')[-700:] for f in bad if f in logs}, failed=sorted(failed))

def main():
    a = sys.argv[1:]; only = None; out = None; jobs = 3
    if '--only' in a: only = a[a.index('--only') + 1].split(',')
    if '--out' in a: out = a[a.index('--out') + 1]
    if '--jobs' in a: jobs = int(a[a.index('--jobs') + 1])
    par = int(a[a.index('--par') + 1]) if '--par' in a else 1
    skip = {json.loads(l)['id'] for l in open(a[a.index('--skip') + 1])} if '--skip' in a else set()
    spec = importlib.util.spec_from_file_location('mutants', a[0]); m = importlib.util.module_from_spec(spec); spec.loader.exec_module(m)
    prepare(jobs); using = json.load(open(USING))
    def attempt(mu):
        t = time.time(); r = run(mu, jobs, using)
        r['id'] = mu['id']; r['secs'] = int(time.time() - t)
        f = r.get('failed', [])
        r['caught'] = [e for e in mu['expect'] if any(x.startswith(e) for x in f)]
        r['missed'] = [e for e in mu['expect'] if e not in r['caught']]
        print(mu['id'], r['secs'], 's', r.get('error', ''), 'failed:', len(f), 'caught', r['caught'], 'MISSED ' + str(r['missed']) if r['missed'] else '', 'BAD ' + str(r.get('bad')) if r.get('bad') else '', flush=True)
        if out: open(out, 'a').write(json.dumps(r) + '\n')
    with ThreadPoolExecutor(par) as ex:
        list(ex.map(attempt, [mu for mu in m.MUTANTS if (not only or mu['id'] in only) and mu['id'] not in skip]))
main()
