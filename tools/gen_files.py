#!/usr/bin/env python3
"""Write FILES.md: every Coq file with the first sentence of its header comment, in build order."""
import re, os
root = os.path.dirname(os.path.dirname(os.path.abspath(__file__)))
with open(root + '/FILES.md', 'w') as o:
    o.write('# Files of the development, in the order of _CoqProject\n\nGenerated by tools/gen_files.py from the header comments.\n\n| file | content |\n|---|---|\n')
    for l in open(root + '/rocq/_CoqProject'):
        l = l.strip()
        if not l.endswith('.v'): continue
        s = open(root + '/rocq/' + l).read()
        m = re.match(r'\(\*\*\s*(.*?)\*\)', s, re.S)
        t = re.sub(r'\s+', ' ', m.group(1)).strip() if m else ''
        t = re.split(r'(?<=[.:]) (?=[A-Z\[])', t)[0].replace('|', '\\|')
        o.write('| %s | %s |\n' % (os.path.basename(l), t))
