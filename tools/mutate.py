#!/usr/bin/env python3
"""Mutation testing of the theorems against wrong programs.

usage: mutate.py mutants.py BASE OUT.jsonl [name...]
BASE: a built copy of /verif/rocq (outside /verif); BASE/../using: output of
coqc -set "Suggest Proof Using" for every file.  For each mutant: copy BASE,
apply the edit, rebuild; each proof that fails is replaced by Admitted and the
build goes on; in the end every theorem of the manifest whose Print Assumptions
lists an admitted proof counts as failed."""
import sys, os, re, json, subprocess, shutil
def using_map(base):
    d = os.path.join(os.path.dirname(base), 'using'); m = {}
    for f in os.listdir(d):
        if not f.endswith('.txt'): continue
        ls = open(os.path.join(d, f)).read().split('\n')
        for i, l in enumerate(ls):
            g = re.match(r'The proof of (\S+) *$', l) or re.match(r'The proof of (\S+)', l)
            if g:
                for k in range(i, min(i + 6, len(ls))):
                    h = re.match(r'Proof using ([^.]*)\.', ls[k])
                    if h: m[(f[:-4], g.group(1))] = h.group(1).strip(); break
    return m
def run_one(mut, base, work, using, log):
    if os.path.exists(work): shutil.rmtree(work)
    subprocess.check_call(['cp', '-a', base, work])
    th = os.path.join(work, 'theories')
    for (f, old, new) in mut['edits']:
        p = os.path.join(th, f + '.v'); s = open(p).read()
        if s.count(old) != 1: return {'error': '%s: pattern found %d times' % (f, s.count(old))}
        open(p, 'w').write(s.replace(old, new))
    admitted = []; broken = []; tg = []
    if os.environ.get('FOCUS'):
        # only the files with the theorems of the claims expected to fail
        for f in sorted(os.listdir(th)):
            if f.startswith('Props') and f.endswith('.v') and any(re.search(r'^\s*(?:Theorem|Example|Lemma|Corollary) +%s_' % e, open(os.path.join(th, f)).read(), re.M) for e in (mut.get('focus') or mut['expect'])):
                tg.append('theories/%so' % f)
    for it in range(80):
        r = subprocess.run(['make', '-k', '-j2', 'COQC=timeout 400 coqc'] + tg, cwd=work, capture_output=True, text=True)
        out = r.stdout + r.stderr
        if r.returncode == 0: break
        errs = re.findall(r'File "\./theories/(\w+)\.v", line (\d+), characters [\d-]+:\nError', out)
        tmo = re.findall(r'\[\S*: theories/(\w+)\.vo\] Error 124', out)
        if not errs and not tmo: broken.append('no position: ' + out[-400:]); break
        seen = set(); progress = False
        for f, line in errs:
            if f in seen: continue
            seen.add(f); p = os.path.join(th, f + '.v'); s = open(p).read(); ls = s.split('\n')
            off = sum(len(x) + 1 for x in ls[:int(line) - 1]) + len(ls[int(line) - 1])
            heads = [h for h in re.finditer(r'^\s*(?:Local )?(?:Theorem|Lemma|Corollary|Example|Fact|Remark|Instance|Definition) +(\w+\'*)', s, re.M) if h.start() <= off]
            if not heads: broken.append('%s:%s' % (f, line)); continue
            h = heads[-1]; name = h.group(1)
            e = re.search(r'\b(Qed|Defined)\.', s[h.start():])
            pr = re.search(r'\bProof( using [^.]*)?\.', s[h.start():])
            if not e or not pr or h.start() + e.end() < off - 400 and False: broken.append('%s.%s' % (f, name)); continue
            a = h.start() + pr.start(); b = h.start() + e.end()
            if b < sum(len(x) + 1 for x in ls[:int(line) - 1]) or a > off:
                broken.append('%s.%s (statement or definition, line %s)' % (f, name, line)); continue
            u = using.get((f, name), '')
            body = s[a:b]; nl = body.count('\n')
            open(p, 'w').write(s[:a] + 'Proof using ' + u + '. Admitted.' + '\n' * nl + s[b:])
            admitted.append('%s.%s' % (f, name)); progress = True
        if not progress:
            if tmo: broken.append('timeout in ' + ','.join(tmo))
            break
    res = {'admitted': admitted, 'broken': broken, 'failed': []}
    thms = []
    for f in sorted(os.listdir(th)):
        if f.startswith('Props') and f.endswith('.v'):
            s = open(os.path.join(th, f)).read(); m = f[:-2]
            if tg and 'theories/%so' % f not in tg: continue
            ts = re.findall(r'^\s*(?:Theorem|Example|Lemma|Corollary) +(C\d\d_\w+)', s, re.M)
            if os.path.exists(os.path.join(th, m + '.vo')) and not broken: thms += [(m, t) for t in ts]
            elif broken and any(True for _ in ts):
                # not compiled because of an earlier file or a broken statement
                # the build above went as far as it could: what is still out of date cannot be built
                r = subprocess.run(['make', '-n', 'theories/%s.vo' % m], cwd=work, capture_output=True, text=True)
                if r.returncode != 0 or 'COQC' in r.stdout or 'coqc' in r.stdout: res['failed'] += [t for t in ts]
                else: thms += [(m, t) for t in ts]
    if thms and admitted:
        q = os.path.join(work, 'Q.v'); mods = sorted(set(m for m, _ in thms))
        with open(q, 'w') as o:
            for m in mods: o.write('From Verif Require %s.\n' % m)
            for m, t in thms: o.write('Goal True. idtac "@@ %s". exact I. Qed.\nPrint Assumptions %s.%s.\n' % (t, m, t))
        r = subprocess.run(['coqc', '-Q', 'theories', 'Verif', 'Q.v'], cwd=work, capture_output=True, text=True)
        names = set(a.split('.')[1] for a in admitted)
        for blk in r.stdout.split('@@ ')[1:]:
            t = blk.split()[0]
            used = set(re.findall(r"^(?:[\w.]+\.)?([\w']+) *(?::|$)", blk, re.M))
            if (used & names) or t in names: res['failed'].append(t)
        if r.returncode != 0: res['broken'].append('query: ' + r.stderr[-300:])
    return res
def main():
    muts = {}; exec(open(sys.argv[1]).read(), muts); muts = muts['MUTANTS']
    base, out, only = sys.argv[2].rstrip('/'), sys.argv[3], sys.argv[4:]
    using = using_map(base)
    done = set(json.loads(l)['id'] for l in open(out)) if os.path.exists(out) else set()
    for mu in muts:
        if only and mu['id'] not in only: continue
        if mu['id'] in done and not only: continue
        res = run_one(mu, base, base + '_work', using, None)
        if 'error' in res: print(mu['id'], res['error']); continue
        rec = {'id': mu['id'], 'definition': mu['definition'], 'edit': mu['edit'], 'claim': mu['claim'],
               'first_proofs_failing': res['admitted'][:12], 'statements_no_longer_typed': res['broken'],
               'theorems_failed': sorted(set(res['failed'])), 'expected': mu['expect'],
               'survived': [e for e in mu['expect'] if not any(t.startswith(e) for t in res['failed'])],
               'theorems_tightened': []}
        open(out, 'a').write(json.dumps(rec) + '\n')
        print(mu['id'], 'failed', len(rec['theorems_failed']), 'survived', rec['survived'], 'broken', res['broken'], 'adm', len(res['admitted']), flush=True)
main()
