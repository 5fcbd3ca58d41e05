#!/usr/bin/env python3
"""Rewrite the section "Code modelled" of DESIGN.md: for each file of /repo, the
functions cited by a definition of the model and the functions that are not."""
import glob, os, re
root = os.path.dirname(os.path.dirname(os.path.abspath(__file__)))
SKIP = re.compile(r'print|free$|_free|rtclock|usage|dummy')
funcs = {}
for f in sorted(glob.glob('/repo/lib/*.c') + glob.glob('/repo/lib/*.cpp') + glob.glob('/repo/tool/*.cpp') + glob.glob('/repo/tool/*.c')):
    lines = open(f, errors='replace').read().split('\n')
    out, start = [], None
    for n, l in enumerate(lines, 1):
        if l.startswith('}') and start:
            out.append((name, start, n)); start = None
        elif start is None and re.match(r'^[A-Za-z_].*', l) and '(' in l and not l.rstrip().endswith(';') and \
                not l.startswith(('#', 'typedef', 'struct', 'enum', 'extern', 'using', 'namespace')):
            m = re.search(r'([A-Za-z_][\w:~]*)\s*\(', l)
            if m: name, start = m.group(1), n
        elif start and l.rstrip().endswith(');') and not any('{' in x for x in lines[start - 1:n]):
            start = None
    funcs[f[len('/repo/'):]] = out
cites = {}
for f in glob.glob(root + '/rocq/theories/*.v'):
    for m in re.finditer(r'((?:lib|tool)/[\w\-]+\.(?:cpp|c|h))((?:[:,\s]+(?:and\s+)?\d+(?:-\d+)?)+)', open(f).read()):
        for r in re.finditer(r'(\d+)(?:-(\d+))?', m.group(2)):
            cites.setdefault(m.group(1), []).append((int(r.group(1)), int(r.group(2) or r.group(1))))
out = []
for fn, l in funcs.items():
    yes = [n for n, a, b in l if any(x <= b and y >= a for x, y in cites.get(fn, []))]
    no = [n for n, a, b in l if n not in yes and not SKIP.search(n)]
    if not l: continue
    out.append(f"* `{fn}`: " + (', '.join(f'`{n}`' for n in yes) if yes else 'nothing') + '.' +
               ('\n  Not modelled: ' + ', '.join(f'`{n}`' for n in no) + '.' if no else ''))
d = open(root + '/DESIGN.md').read()
a = d.index('<!-- coverage -->'); b = d.index('<!-- end coverage -->')
open(root + '/DESIGN.md', 'w').write(d[:a] + '<!-- coverage -->\n' + '\n'.join(out) + '\n' + d[b:])
