"""Applies one edit to a model file in a scratch copy, rebuilds, and logs which
lemmas stop compiling.  Usage: mutate.py muts.json  (list of objects with keys
file, definition, edit, old, new, claim, props, optionally the make targets)"""
import json, re, os, subprocess, sys, shutil
root = os.path.dirname(os.path.dirname(os.path.abspath(__file__)))
work = os.environ.get('MUT_WORK', '/tmp/mut')
def enclosing(path, line):
    name = None
    for k, l in enumerate(open(path), 1):
        m = re.match(r'\s*(?:Theorem|Lemma|Example|Definition|Fixpoint|Corollary)\s+(\w+)', l)
        if m: name = m.group(1)
        if k >= line: break
    return name
muts = json.load(open(sys.argv[1]))
for mu in muts:
    subprocess.run(['rm', '-rf', work]); subprocess.run(['cp', '-a', os.environ.get('MUT_SRC', root + '/rocq'), work], check=True)
    subprocess.run(f"rm -f theories/{mu.get('props', '*_Props')}.vo", shell=True, cwd=work)
    p = f"{work}/theories/{mu['file']}"
    s = open(p).read()
    assert s.count(mu['old']) >= 1, ('pattern not found', mu['old'])
    open(p, 'w').write(s.replace(mu['old'], mu['new'], 1))
    subprocess.run('coq_makefile -f _CoqProject -o Makefile', shell=True, cwd=work, stdout=subprocess.DEVNULL)
    try:
        r = subprocess.run('timeout 1200 make -k -j4 ' + mu.get('targets', ''), shell=True, cwd=work, capture_output=True, text=True)
        out = r.stdout + r.stderr
    except subprocess.TimeoutExpired:
        out = 'timeout'
    errs = []
    for m in re.finditer(r'File "\./(theories/\w+\.v)", line (\d+)[^\n]*\n(Error|In environment)?', out):
        f = f"{work}/{m.group(1)}"
        tail = out[m.end():m.end()+200]
        if 'Warning' in (m.group(0) + tail[:10]): continue
        errs.append(f"{os.path.basename(f)}:{enclosing(f, int(m.group(2)))}")
    broken = []
    for f in sorted(os.listdir(work + '/theories')):
        if f.endswith('_Props.v') and not os.path.exists(f"{work}/theories/{f}o"):
            broken.append(f)
    log = {"definition": f"{mu['file']}:{mu['definition']}", "edit": mu['edit'], "claim_broken": mu['claim'],
           "theorems_failed": errs, "property_files_not_built": broken, "tightened": mu.get('tightened', [])}
    print(json.dumps(log))
    if not mu.get('dry'):
        open(root + '/seeded/LOG.jsonl', 'a').write(json.dumps(log) + '\n')
