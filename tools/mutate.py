#!/usr/bin/env python3
"""Mutation testing.  usage: mutate.py prepare DIR
                             mutate.py run DIR SPEC.json
[prepare] copies rocq/ to DIR, builds it and records the section variables
every proof uses.  [run] applies each mutation of SPEC.json (a list of objects
with file, old, new, props: names of *Props files to look at, plus anything
else) to the copy, recompiles the files between the edited file and the Props
files, replaces every proof that fails by an axiom named after its lemma, and
prints which theorems of the Props files depend on a failed proof."""
import json, os, re, shutil, subprocess, sys, time
ROOT = os.path.dirname(os.path.dirname(os.path.abspath(__file__)))

def files(d):
    return [l.strip() for l in open(d + '/_CoqProject') if l.strip().endswith('.v')]

def deps(d):
    out = subprocess.run(['coqdep', '-Q', 'theories', 'Verif'] + files(d), cwd=d, capture_output=True, text=True).stdout
    r = {}
    for l in out.splitlines():
        if ':' in l and '.vo' in l.split(':')[0]:
            a, b = l.split(':', 1)
            tgt = [x for x in a.split() if x.endswith('.vo')][0]
            r[tgt[:-1]] = [x[:-1] for x in b.split() if x.endswith('.vo') and x.startswith('theories')]
    return r

def coqc(d, f, timeout):
    try:
        p = subprocess.run(['timeout', str(timeout), 'coqc', '-time', '-w', 'none', '-Q', 'theories', 'Verif', f], cwd=d,
                           capture_output=True, text=True, errors='replace')
    except Exception as e:
        return 1, str(e)
    return p.returncode, p.stdout + p.stderr

STMT = re.compile(r'^\s*(?:Local\s+|Global\s+)?(Lemma|Theorem|Example|Corollary|Fact|Remark|Instance|Definition|Program Definition)\s+([\w\']+)', re.M)

def enclosing(src, pos):
    """the proof (name, start of 'Proof', end after Qed.) containing pos"""
    for m in re.finditer(r'\bProof\b', src):
        e = re.compile(r'\b(Qed|Defined)\.').search(src, m.start())
        if not e: break
        if m.start() <= pos < e.end():
            names = [x for x in STMT.finditer(src[:m.start()])]
            return names[-1].group(2), names[-1].start(), m.start(), e.end()
    return None

def prepare(d):
    if os.path.exists(d): shutil.rmtree(d)
    shutil.copytree(ROOT + '/rocq', d, ignore=shutil.ignore_patterns('*.vo*', '*.glob', '*.aux', '.*.aux', 'Makefile*', '.Makefile*'))
    dp = deps(d); done = set(); use = {}; times = {}
    order = files(d)
    from concurrent.futures import ThreadPoolExecutor
    def one(f):
        p = d + '/' + f; orig = open(p).read()
        open(p, 'w').write('Set Suggest Proof Using.\n' + orig)
        t = time.time(); rc, out = coqc(d, f, 3000); times[f] = time.time() - t
        u = {}
        for m in re.finditer(r'The proof of ([\w\']+)\s+should start with (?:one of the following commands|command)[^:]*:\s*(Proof using[^.]*)\.', out):
            u[m.group(1)] = m.group(2)
        open(p, 'w').write(orig)
        return f, rc, u, out
    pending = list(order)
    with ThreadPoolExecutor(4) as ex:
        while pending:
            ready = [f for f in pending if all(x in done for x in dp.get(f, []))][:8]
            for f, rc, u, out in ex.map(one, ready):
                if rc: print('FAILED', f, out[-500:]); sys.exit(1)
                done.add(f); use[f] = u; pending.remove(f)
    json.dump({'use': use, 'times': times}, open(d + '/prep.json', 'w'))
    print('prepared', len(order))

def run(d, spec):
    prep = json.load(open(d + '/prep.json')); dp = deps(d); order = files(d)
    for mu in json.load(open(spec)):
        f0 = 'theories/' + mu['file']
        props = ['theories/' + x + '.v' for x in mu['props']]
        # files needed by the props, and depending on f0
        need = set(); todo = list(props)
        while todo:
            x = todo.pop()
            if x in need: continue
            need.add(x); todo += dp.get(x, [])
        aff = {f0}
        for f in order:
            if any(x in aff for x in dp.get(f, [])): aff.add(f)
        # topological order
        todo = [f for f in need if f in aff]; seq = []
        while todo:
            r = [f for f in todo if not any(x in todo for x in dp.get(f, []))]
            seq += sorted(r); todo = [f for f in todo if f not in r]
        saved = {}
        for f in seq:
            saved[f] = open(d + '/' + f).read()
        for f in seq:
            vo = d + '/' + f + 'o'
            if os.path.exists(vo): os.rename(vo, vo + '.orig')
        src = saved[f0]
        edits = mu['edits'] if 'edits' in mu else [[mu['old'], mu['new']]]
        bad = False
        for o, n in edits:
            if src.count(o) != 1: print(json.dumps({'id': mu.get('id'), 'error': 'pattern occurs %d times' % src.count(o)})); bad = True
            src = src.replace(o, n)
        failed = []; broken = None; theorems = {}
        if not bad:
          open(d + '/' + f0, 'w').write(src)
          for f in seq:
            cur = open(d + '/' + f).read()
            if f in props:
                names = re.findall(r'^Theorem ([\w\']+)', cur, re.M)
                cur += '\n' + '\n'.join('Check %s. Print Assumptions %s.' % (n, n) for n in names) + '\n'
                # inside sections the names are fine after End
                open(d + '/' + f, 'w').write(cur)
            for it in range(60):
                tmo = int(prep['times'].get(f, 10) * 4 + 30)
                rc, out = coqc(d, f, tmo)
                if rc == 0: break
                b = cur.encode()
                m = re.search(r'File "[^"]*", line (\d+), characters (\d+)-(\d+):\s*\n(?:Error|.*\n?Error)', out)
                if rc == 124 or not m:
                    ts = re.findall(r'^Chars (\d+) - (\d+)', out, re.M)
                    bpos = int(ts[-1][1]) + 1 if ts else 0
                    why = 'timeout'
                else:
                    lines = b.split(b'\n'); ln = int(m.group(1))
                    bpos = sum(len(x) + 1 for x in lines[:ln - 1]) + int(m.group(2)); why = 'error'
                pos = len(b[:bpos].decode(errors='replace'))
                en = enclosing(cur, pos)
                if en is None:
                    broken = (f, out[-300:]); break
                name, ss, ps, pe = en
                if name in [x[1] for x in failed if x[0] == f]:
                    broken = (f, 'again ' + name + out[-300:]); break
                failed.append((f, name, why))
                using = prep['use'].get(f, {}).get(name, 'Proof')
                cur = cur[:ss] + '\nAxiom mutfail_%s : False.\n' % name + cur[ss:ps] + using + '. destruct mutfail_%s. Qed.' % name + cur[pe:]
                open(d + '/' + f, 'w').write(cur)
            if broken: break
            if f in props:
                # with -time the message of a command precedes its Chars line;
                # the names there are cut short, so go by the order
                body = ''; bodies = []
                for line in out.splitlines():
                    mm = re.match(r'Chars \d+ - \d+ \[(\S+)', line)
                    if mm:
                        if mm.group(1).startswith('Print~Assum'): bodies.append(body)
                        body = ''
                    else: body += line + '\n'
                for nm, bd in zip(names, bodies[-len(names):]):
                    theorems[nm] = sorted(set(re.findall(r'mutfail_([\w\']+)', bd)))
        for f in seq:
            open(d + '/' + f, 'w').write(saved[f])
            vo = d + '/' + f + 'o'
            if os.path.exists(vo + '.orig'): os.replace(vo + '.orig', vo)
        hit = sorted(k for k, v in theorems.items() if v)
        print(json.dumps({'id': mu.get('id'), 'file': mu['file'], 'failed_lemmas': [x[1] for x in failed],
                          'failed_theorems': hit, 'ok_theorems': sorted(k for k, v in theorems.items() if not v),
                          'broken': broken}), flush=True)

if sys.argv[1] == 'prepare': prepare(sys.argv[2])
else: run(sys.argv[2], sys.argv[3])
