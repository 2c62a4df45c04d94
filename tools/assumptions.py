#!/usr/bin/env python3
"""Rewrites section 4 of DESIGN.md: runs Print Assumptions on every theorem of MANIFEST.json
(the theories must be compiled) and groups the theorems by the set of axioms listed."""
import hashlib, json, os, re, subprocess, tempfile, glob
root = os.path.dirname(os.path.dirname(os.path.abspath(__file__)))
claims = json.load(open(root + '/MANIFEST.json'))['claims']
names = [t for c in claims for t in c['theorems']]
mods = [os.path.basename(f)[:-2] for f in sorted(glob.glob(root + '/rocq/theories/*.v'))]
where = {}
for f in sorted(glob.glob(root + '/rocq/theories/*.v')):
    for m in re.finditer(r'^(?:Theorem|Corollary)\s+(C\d\d+_\w+)', open(f).read(), re.M):
        where[m.group(1)] = os.path.basename(f)[:-2]
src = 'From Verif Require ' + ' '.join(mods) + '.\n'
# results of earlier runs, valid while the compiled module (which records its dependencies) is the same
cache_file = tempfile.gettempdir() + '/assumptions_cache.json'
cache = json.load(open(cache_file)) if os.path.exists(cache_file) else {}
digest = {m: hashlib.sha1(open(root + '/rocq/theories/' + m + '.vo', 'rb').read()).hexdigest() for m in set(where.values())}
key = {t: t + ' ' + digest[where[t]] for t in names}
todo = [t for t in names if key[t] not in cache]
for t in todo:
    src += 'Goal True. idtac "@@%s". exact I. Qed.\nPrint Assumptions Verif.%s.%s.\n' % (t, where[t], t)
d = tempfile.mkdtemp()
open(d + '/A.v', 'w').write(src)
out = subprocess.run(['coqc', '-w', 'none', '-Q', root + '/rocq/theories', 'Verif', d + '/A.v'],
                     capture_output=True, text=True, check=True).stdout
res, cur = {}, None
for line in out.split('\n'):
    if line.startswith('@@'):
        cur = line[2:].strip(); res[cur] = set()
    elif cur and re.match(r'^[A-Za-z_][\w.]*( :|$)', line) and not line.startswith(('Axioms', 'Closed')):
        res[cur].add(line.split(' ')[0])
for t in todo:
    cache[key[t]] = sorted(res[t])
json.dump(cache, open(cache_file, 'w'))
groups = {}
for t in names:
    groups.setdefault(tuple(cache[key[t]]), []).append(t)
s = '## 4. Print Assumptions\n\nWritten by `tools/assumptions.py`: every theorem of MANIFEST.json, grouped by exactly the axioms\n`Print Assumptions` lists for it.  All are axioms of the Coq standard library.\n\n'
for g, ts in sorted(groups.items(), key=lambda x: (len(x[0]), x[0])):
    s += '**' + (', '.join('`%s`' % a for a in g) if g else 'Closed under the global context') + '** (%d theorems)\n\n' % len(ts)
    s += ', '.join(ts) + '\n\n'
p = root + '/DESIGN.md'
t = open(p).read()
a = t.find('## 4. Print Assumptions')
b = t.find('\n## 5', a) + 1 if a >= 0 and t.find('\n## 5', a) >= 0 else len(t)
t = t.rstrip('\n') + '\n\n' + s if a < 0 else t[:a] + s + t[b:]
open(p, 'w').write(t)
for g, ts in groups.items():
    print(len(ts), g)
