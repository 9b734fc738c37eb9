#!/usr/bin/env python3
"""setst.py Cnn status note -- record a status in tools/status.json"""
import json, sys, os
f = os.path.join(os.path.dirname(os.path.abspath(__file__)), 'status.json')
d = json.load(open(f))
d[sys.argv[1]] = {"status": sys.argv[2], "note": sys.argv[3] if len(sys.argv) > 3 else ""}
with open(f, 'w') as o:
    o.write('{\n' + ',\n'.join(' %s: %s' % (json.dumps(k), json.dumps(d[k])) for k in sorted(d)) + '\n}\n')
