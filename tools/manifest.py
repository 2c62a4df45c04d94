#!/usr/bin/env python3
"""Writes MANIFEST.json: collects theorems named Cnn_... from rocq/theories/*.v and joins
the status and note of each property from tools/status.txt (Cnn|status|note)."""
import glob, json, os, re
root = os.path.dirname(os.path.dirname(os.path.abspath(__file__)))
thms = {}
for f in sorted(glob.glob(root + '/rocq/theories/*.v')):
    for m in re.finditer(r'^(?:Theorem|Corollary)\s+((C\d\d+)_\w+)', open(f).read(), re.M):
        thms.setdefault(m.group(2), []).append(m.group(1))
claims = []
for line in open(root + '/tools/status.txt'):
    line = line.strip()
    if not line or line.startswith('#'):
        continue
    pid, status, note = line.split('|', 2)
    claims.append({"property": pid, "status": status, "theorems": thms.pop(pid, []), "note": note})
    if status != 'not_applicable' and not claims[-1]["theorems"]:
        print('no theorem for', pid)
for pid in thms:
    print('no status line for', pid)
json.dump({"claims": claims}, open(root + '/MANIFEST.json', 'w'), indent=1)
open(root + '/MANIFEST.json', 'a').write('\n')
