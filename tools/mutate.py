#!/usr/bin/env python3
"""Apply mutations to a scratch copy of the model and record which theorems fail.
usage: mutate.py FILE.json   (list of {file, def, old, new, edit, claim, [tightened]})"""
import json, os, re, shutil, subprocess, sys
SRC = '/tmp/mutbase/rocq'  # a build of the last commit, see mutbase.sh
LOG = '/verif/seeded/LOG.jsonl'
def thm_at(path, line):
    name = None
    for n, l in enumerate(open(path), 1):
        if n > line: break
        m = re.match(r'\s*(?:Local )?(?:Theorem|Lemma|Corollary|Example|Fact|Definition|Fixpoint)\s+([\w\']+)', l)
        if m: name = m.group(1)
    return name
def claims(path):
    return re.findall(r'^(?:Theorem|Corollary)\s+(C\d\d\w*)', open(path).read(), re.M)
def main():
    done = set()
    if os.path.exists(LOG):
        for l in open(LOG):
            d = json.loads(l); done.add((d['definition'], d['edit']))
    for m in json.load(open(sys.argv[1])):
        if (m['file'][:-2] + '.' + m['def'], m['edit']) in done: continue
        W = '/tmp/mut%d/rocq' % os.getpid()
        shutil.rmtree(W, ignore_errors=True)
        subprocess.run(['cp', '-a', SRC, os.path.dirname(W) + '/'] if os.path.isdir(os.path.dirname(W)) else ['sh', '-c', 'mkdir -p %s && cp -a %s %s/' % (os.path.dirname(W), SRC, os.path.dirname(W))], check=True)
        p = W + '/theories/' + m['file']
        s = open(p).read()
        if s.count(m['old']) < 1:
            print('NOT FOUND', m['file'], m['def'], m['old']); continue
        k = m.get('nth', 0)
        if 'in' in m:
            i = s.index(m['in']); j = s.index(m['old'], i)
        else:
            j = s.index(m['old'])
        s = s[:j] + m['new'] + s[j + len(m['old']):]
        # examples in the model would fail first and hide the theorems
        s = re.sub(r'^Example .*?Qed\.[ ]*$', '', s, flags=re.M | re.S)
        open(p, 'w').write(s)
        r = subprocess.run('coq_makefile -f _CoqProject -o Makefile >/dev/null && timeout 1500 make -k -j3 2>&1', shell=True, cwd=W, capture_output=True, text=True).stdout
        failed = []; files = []
        for f, line in re.findall(r'File "\./theories/(\w+\.v)", line (\d+)', r):
            if 'Error' not in r: break
            files.append((f, int(line)))
        errs = re.findall(r'File "\./theories/(\w+\.v)", line (\d+), characters [^\n]*\nError', r)
        for f, line in errs:
            failed.append('%s.%s' % (f[:-2], thm_at(W + '/theories/' + f, int(line))))
        blocked = []
        for v in sorted(os.listdir(W + '/theories')):
            if v.endswith('Props.v') and not (os.path.exists(W + '/theories/' + v + 'o') and os.path.getmtime(W + '/theories/' + v + 'o') >= os.path.getmtime(p)):
                pass
        for f in sorted(set(re.findall(r'theories/(\w+)\.vo\]? Error', r))):
            pass
        entry = {'definition': m['file'][:-2] + '.' + m['def'], 'edit': m['edit'], 'claim': m['claim'], 'failed': failed,
                 'tightened': m.get('tightened', []), 'outcome': 'caught' if failed else 'SURVIVED'}
        print(entry['outcome'], entry['definition'], m['edit'], failed, flush=True)
        if failed or m.get('log_survivor'):
            with open(LOG, 'a') as f: f.write(json.dumps(entry) + '\n')
        else:
            with open('/tmp/survivors.jsonl', 'a') as f: f.write(json.dumps(m) + '\n')
main()
