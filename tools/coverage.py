"""Writes COVERAGE.md: for every function of /repo, the model files that cite its lines.

A function counts as modelled when a citation "file.go:a-b" in a *.v file overlaps its body."""
import re, glob, os, collections
root = os.path.dirname(os.path.dirname(os.path.abspath(__file__)))
cites = collections.defaultdict(list)
for v in sorted(glob.glob(root + '/rocq/theories/*.v')):
    txt = open(v).read()
    for m in re.finditer(r'([A-Za-z_0-9]+/[A-Za-z_0-9]+\.go)[: ]\s*(\d+(?:\s*-\s*\d+)?(?:(?:\s*\([^()]*\))?(?:,\s*[A-Za-z]\w*(?:\.[A-Za-z]\w*)?)?(?:[,;]\s*|[,;]?\s+and\s+)\d+(?:\s*-\s*\d+)?)*)', txt):
        for r in re.finditer(r'(\d+)(?:\s*-\s*(\d+))?', m.group(2)):
            a = int(r.group(1)); b = int(r.group(2) or a)
            if b >= a: cites[m.group(1)].append((a, b, os.path.basename(v)))
out = ['# Functions of the repository and the model files that cite them', '',
       'Generated by tools/coverage.py from the citations in the model. "-" means not modelled.', '']
tot = cov = 0
for d in ('pf', 'pfc', 'pfutil', 'elasticity', 'cmd'):
    for g in sorted(glob.glob('/repo/%s/*.go' % d)):
        if g.endswith('_test.go'): continue
        rel = g[len('/repo/'):]
        lines = open(g).read().split('\n')
        fns = []
        for i, l in enumerate(lines, 1):
            m = re.match(r'func (?:\((?:\w+ )?\*?(\w+)\) )?(\w+)\(', l)
            if m:
                j = i
                if not (l.rstrip().endswith('}') and l.count('{') == l.count('}')):
                    while j < len(lines) and not lines[j].startswith('}'): j += 1
                    j += 1
                fns.append((i, j, (m.group(1) + '.' if m.group(1) else '') + m.group(2)))
        if not fns: continue
        out.append('## ' + rel); out.append('')
        out.append('| function | lines | cited in |'); out.append('|---|---|---|')
        for a, b, n in fns:
            vs = sorted({v for (x, y, v) in cites[rel] if x <= b and y >= a})
            tot += 1; cov += bool(vs)
            out.append('| %s | %d-%d | %s |' % (n, a, b, ', '.join(vs) or '-'))
        out.append('')
out.insert(3, '%d of %d functions are cited.' % (cov, tot)); out.insert(4, '')
open(root + '/COVERAGE.md', 'w').write('\n'.join(out) + '\n')
print(cov, tot)
