#!/usr/bin/env python3
"""Put DESIGN.md together.  Needs a finished build; runs coqc for Print Assumptions."""
import json, re, glob, os, subprocess, tempfile, collections
root = os.path.dirname(os.path.dirname(os.path.abspath(__file__)))
th = root + '/rocq/theories'
man = json.load(open(root + '/MANIFEST.json'))['claims']
props = {}
for l in open(root + '/properties.jsonl'):
    d = json.loads(l); props[d['id']] = d
loc = collections.defaultdict(list)
for f in glob.glob(th + '/*.v'):
    for m in re.finditer(r'^\s*(?:Theorem|Lemma|Corollary|Proposition|Fact|Remark)\s+([\w\']+)', open(f).read(), re.M):
        loc[m.group(1)].append(os.path.basename(f)[:-2])
def where(n):
    L = loc[n.split('.')[-1]]
    return L[0] if len(L) == 1 else [x for x in L if x.startswith('Props')][0]
names = []
for c in man:
    names += [t for t in c['theorems'] if t not in names]
src = 'From Verif Require %s.\n' % ' '.join(sorted({where(n) for n in names}))
for n in names:
    src += 'Goal True. idtac "@@ %s". Abort.\nPrint Assumptions %s.%s.\n' % (n, where(n), n.split('.')[-1])
with tempfile.TemporaryDirectory() as t:
    open(t + '/A.v', 'w').write(src)
    out = subprocess.run(['coqc', '-Q', th, 'Verif', t + '/A.v'], stdout=subprocess.PIPE, stderr=subprocess.STDOUT, text=True).stdout
groups = collections.defaultdict(list)
parts = re.split(r'@@ (\S+)\n', out)[1:]
assert len(parts) == 2 * len(names), (len(parts), len(names), out[-500:])
for n, b in zip(parts[::2], parts[1::2]):
    k = () if 'Closed under' in b else tuple(sorted(set(re.findall(r'^([A-Za-z_][\w.]*)\s*(?::|$)', b, re.M)) - {'Axioms'}))
    groups[k].append(n)
s = open(root + '/tools/design_head.md').read()
s += '\n## Properties\n\nFor each property: status, files with the theorems, and what is proved or missing.\n'
for c in sorted(man, key=lambda c: c['property']):
    p = props[c['property']]
    fs = sorted({where(t) for t in c['theorems']})
    s += '\n**%s %s** (%s). %s\n' % (c['property'], p['title'], c['status'], c['note'])
    s += 'Code: %s. Theorems in %s: %s.\n' % (', '.join('`%s`' % a for a in p['anchors']), ', '.join('`%s.v`' % f for f in fs), ', '.join('`%s`' % t for t in c['theorems']))
s += '\n## Assumptions of each theorem\n'
for k, v in sorted(groups.items(), key=lambda x: (len(x[0]), x[0])):
    s += '\n%s:\n%s.\n' % ('No axioms' if not k else 'Using ' + ', '.join('`%s`' % a for a in k), ', '.join('`%s`' % n for n in v))
open(root + '/DESIGN.md', 'w').write(s)
print({len(k): len(v) for k, v in groups.items()}, len(s.splitlines()))
