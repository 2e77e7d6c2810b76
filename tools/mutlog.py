#!/usr/bin/env python3
"""Append the outcome of a batch of mutants to seeded/LOG.jsonl.
usage: mutlog.py batch.out [tightened.json]   (tightened: {id: [theorems]})"""
import json, re, sys, os
ROOT = os.path.dirname(os.path.dirname(os.path.abspath(__file__)))
tight = json.load(open(sys.argv[2])) if len(sys.argv) > 2 else {}
out = open(os.path.join(ROOT, 'seeded', 'LOG.jsonl'), 'a')
for l in open(sys.argv[1]):
    r = json.loads(l)
    if 'error' in r or (r['failed'] and all(f.split('.')[0] + '.v' == r['file'] for f in r['failed'])):
        continue  # the edit did not apply or the edited model does not type check
    src = open(os.path.join(ROOT, 'rocq/theories', r['file'])).read()
    pos = src.find(r['old'])
    head = re.match(r'(?:Definition|Fixpoint)\s+(\w+)', r['old'])
    names = [head.group(1)] if head else [m.group(1) for m in re.finditer(r'^(?:Definition|Fixpoint|Record|Inductive)\s+(\w+)', src[:pos + 1], re.M)]
    out.write(json.dumps({
        'definition': f"{r['file'][:-2]}.{names[-1] if names else '?'}",
        'edit': f"{r['old'].strip()}  ==>  {r['new'].strip()}",
        'claim': r['claim'],
        'failed': r['failed'],
        'tightened': tight.get(str(r['id']), []),
        'outcome': r.get('outcome') or ('caught' if r['failed'] else 'survived')}) + '\n')
