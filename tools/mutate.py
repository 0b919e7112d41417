#!/usr/bin/env python3
"""Run the proofs against a wrong program.

usage: mutate.py SPEC.json [--log]
SPEC: {"file": "Oct.v", "definition": "...", "edit": "...", "claim": "...",
       "old": "text in the file", "new": "replacement"}
Copies the theories to a scratch directory, applies the edit, builds; each lemma
whose proof fails is admitted there so that the build continues.  Reports the property
theorems which fail themselves or depend on a failed lemma.
"""
import sys, os, re, json, shutil, subprocess
ROOT = os.path.dirname(os.path.dirname(os.path.abspath(__file__)))
SRC = os.path.join(ROOT, 'rocq')
PU = '/tmp/mut_pu.json'
STMT = re.compile(r'^[ \t]*(?:#\[[^\]]*\]\s*)?(?:Local\s+|Global\s+)?(Lemma|Theorem|Example|Corollary|Fact|Remark|Instance)\s+(\w+)', re.M)

def files():
    return [l.strip()[9:] for l in open(SRC + '/_CoqProject') if l.strip().endswith('.v')]

def proof_using():
    """lemma -> section variables used, from Suggest Proof Using"""
    stamp = max(os.path.getmtime(SRC + '/theories/' + f) for f in files())
    if os.path.exists(PU) and os.path.getmtime(PU) > stamp:
        return json.load(open(PU))
    d = '/tmp/mut_pu'
    shutil.rmtree(d, ignore_errors=True); os.makedirs(d)
    res = {}
    for f in files(): shutil.copy(SRC + '/theories/' + f, d)
    open(d + '/_CoqProject', 'w').write('-Q . Verif\n-arg -set\n-arg "Suggest Proof Using"\n' + '\n'.join(files()) + '\n')
    subprocess.run('coq_makefile -f _CoqProject -o Makefile', shell=True, cwd=d, capture_output=True)
    r = subprocess.run('make -j4 --output-sync=target 2>&1', shell=True, cwd=d, capture_output=True, text=True)
    cur = None
    out = r.stdout
    for m in re.finditer(r'The proof of (\w+)\s+should start with one of the following commands:\s+Proof using([^.]*)\.', out):
        res[m.group(1)] = m.group(2).split()
    json.dump(res, open(PU, 'w'))
    return res

def run(spec, work='/tmp/mut'):
    pu = proof_using()
    shutil.rmtree(work, ignore_errors=True); os.makedirs(work)
    for f in files():
        for ext in ('', 'o', 'os', 'ok'):
            p = SRC + '/theories/' + f + ext
            if os.path.exists(p): shutil.copy2(p, work)
        g = SRC + '/theories/' + f[:-2] + '.glob'
        if os.path.exists(g): shutil.copy2(g, work)
    open(work + '/_CoqProject', 'w').write('-Q . Verif\n' + '\n'.join(files()) + '\n')
    subprocess.run('coq_makefile -f _CoqProject -o Makefile', shell=True, cwd=work, capture_output=True)
    subprocess.run('make -j4', shell=True, cwd=work, capture_output=True)
    p = work + '/' + spec['file']; s = open(p).read()
    assert s.count(spec['old']) >= 1, 'pattern not found'
    if spec.get('all'): s = s.replace(spec['old'], spec['new'])
    else:
        assert s.count(spec['old']) == 1, 'pattern not unique (%d)' % s.count(spec['old'])
        s = s.replace(spec['old'], spec['new'])
    open(p, 'w').write(s)
    failed = []; broken = []
    for it in range(400):
        r = subprocess.run("make -j2 -k TIMECMD='timeout 600' 2>&1", shell=True, cwd=work, capture_output=True, text=True)
        if r.returncode == 0: break
        errs = re.findall(r'File "\./([\w.]+)", line (\d+), characters (\d+)-(\d+):\n(Error[^\n]*(?:\n[^\n]+){0,3})', r.stdout)
        errs = [e for e in errs if e[4].startswith('Error')]
        if not errs:
            broken.append(r.stdout[-800:]); break
        progress = False
        for f in sorted(set(e[0] for e in errs)):
            e = [x for x in errs if x[0] == f][0]
            line = int(e[1]); s = open(work + '/' + f).read()
            off = sum(len(l) + 1 for l in s.split('\n')[:line - 1])
            ms = [m for m in STMT.finditer(s) if m.start() <= off]
            if not ms:
                broken.append(f + ': ' + e[4]); continue
            m = ms[-1]
            # end of this lemma
            q = re.compile(r'\b(Qed|Defined)\.').search(s, m.end())
            pr = re.compile(r'\bProof\b[^.]*\.').search(s, m.end())
            if q is None or pr is None or pr.start() > q.start() or off > q.end():
                broken.append(f + ':' + e[1] + ': ' + e[4]); continue
            name = m.group(2)
            if off < pr.start():
                broken.append('statement of ' + name + ': ' + e[4])
                s = s[:m.start()] + s[q.end():]
            else:
                u = pu.get(name)
                using = '' if not u else ' using ' + ' '.join(u)
                s = s[:pr.start()] + 'Proof%s. Admitted.' % using + s[q.end():]
                failed.append(f[:-2] + '.' + name)
            open(work + '/' + f, 'w').write(s); progress = True
        if not progress: break
    # dependencies of the property theorems
    res = {}
    fl = set(x.split('.')[1] for x in failed)
    for f in files():
        if not f.startswith('Prop'): continue
        s = open(work + '/' + f).read()
        names = re.findall(r'^Theorem (C\d+_\w+)', s, re.M)
        t = 'From Verif Require Import %s.\n' % f[:-2] + ''.join('Print Assumptions %s.\n' % n for n in names)
        # separate outputs
        t = 'From Verif Require Import %s.\n' % f[:-2]
        for n in names: t += 'Goal True. idtac "@@%s". Abort.\nPrint Assumptions %s.\n' % (n, n)
        open(work + '/zz.v', 'w').write(t)
        r = subprocess.run('coqc -Q . Verif zz.v', shell=True, cwd=work, capture_output=True, text=True)
        cur = None
        for l in r.stdout.split('\n'):
            if l.startswith('@@'): cur = l[2:]; continue
            mm = re.match(r'([\w.\']+)\s*(:|$)', l)
            if mm and mm.group(1).split('.')[-1] in fl: res.setdefault(cur, []).append(mm.group(1))
        if r.returncode != 0: broken.append('zz ' + f + r.stderr[-300:])
    direct = [x.split('.')[1] for x in failed if x.split('.')[0].startswith('Prop')]
    thms = sorted(set(k for k in res) | set(d for d in direct))
    return thms, failed, broken

if __name__ == '__main__':
    specs = json.load(open(sys.argv[1]))
    if isinstance(specs, dict): specs = [specs]
    for spec in specs:
        try: thms, failed, broken = run(spec)
        except AssertionError as ex: print('SKIP', spec['definition'], ex); continue
        print('==', spec['definition'], '--', spec['edit']); print('   theorems:', thms); print('   lemmas:', failed[:12], len(failed)); print('   broken:', broken[:4])
        sys.stdout.flush()
        if '--log' in sys.argv:
            rec = {'definition': spec['definition'], 'edit': spec['edit'], 'claim': spec['claim'],
                   'theorems_failed': thms, 'lemmas_failed': failed[:15], 'theorems_tightened': spec.get('tightened', [])}
            if broken: rec['build_notes'] = broken[:3]
            open(ROOT + '/seeded/LOG.jsonl', 'a').write(json.dumps(rec) + '\n')
