#!/usr/bin/env python3
"""Ask Print Assumptions about the property theorems (all T_ files compiled) and write tools/assumptions.md.
Theorems already listed there are not asked again, unless ALL=1 is set."""
import glob, re, subprocess, os, collections, tempfile, json, hashlib
root = os.environ.get('ASSROOT', '/verif/rocq/theories')
# answers kept from earlier runs, by the text of the file (delete the file when a model changes)
store = '/tmp/assumptions_cache.json'
cache = json.load(open(store)) if os.path.exists(store) else {}
groups = collections.OrderedDict()
known = {}
if not os.environ.get('ALL') and os.path.exists('/verif/tools/assumptions.md'):
    for line in open('/verif/tools/assumptions.md'):
        m = re.match(r'\* \*\*(.*?)\*\* \(\d+ theorems\): (.*)', line)
        ax = tuple(re.findall(r'`([\w.]+)`', m.group(1)))
        for n in re.findall(r'`(\w+)`', m.group(2)): known[n] = ax
for f in sorted(glob.glob(root + '/T_*.v')):
    mod = os.path.basename(f)[:-2]
    names = re.findall(r'^\s*Theorem (C\d+_\w+)', open(f).read(), re.M)
    for n in names:
        if n in known: groups.setdefault(known[n], []).append(n)
    names = [n for n in names if n not in known]
    if not names: continue
    key = mod + hashlib.sha1(open(f, 'rb').read()).hexdigest()
    if key in cache:
        for n, b in cache[key]:
            if n in names: groups.setdefault(tuple(b), []).append(n)
        continue
    d = tempfile.mkdtemp()
    open(d + '/Chk.v', 'w').write('From Verif Require %s.\n' % mod + ''.join('Print Assumptions %s.%s.\n' % (mod, n) for n in names))
    out = subprocess.run(['coqc', '-Q', root, 'Verif', 'Chk.v'], cwd=d, capture_output=True, text=True).stdout
    blocks, cur = [], None
    for line in out.splitlines():
        if line.startswith('Closed under the global context'):
            blocks.append([]); cur = None
        elif line.startswith('Axioms:'):
            cur = []; blocks.append(cur)
        elif cur is not None and line and not line[0].isspace():
            m = re.match(r'([\w.]+)', line)
            if m: cur.append(m.group(1))
    assert len(blocks) == len(names), (f, len(blocks), len(names))
    cache[key] = [[n, sorted(set(b))] for n, b in zip(names, blocks)]
    json.dump(cache, open(store, 'w'))
    for n, b in zip(names, blocks):
        groups.setdefault(tuple(sorted(set(b))), []).append(n)
print(sum(map(len, groups.values())), 'theorems')
with open('/verif/tools/assumptions.md', 'w') as o:
    for g, ns in sorted(groups.items(), key=lambda t: len(t[0])):
        o.write('* **%s** (%d theorems): %s\n' % (', '.join('`%s`' % a for a in g) if g else 'no axioms (closed under the global context)', len(ns), ', '.join('`%s`' % n for n in sorted(ns))))
