#!/usr/bin/env python3
"""Generates rocq/theories/Properties_*.v, rocq/_CoqProject and MANIFEST.json.

Proof files (theories/*Props.v) hold lemmas NAME_lem preceded by
(* @prop CXX English *) and non-vacuity lemmas NAME_ex_lem preceded by (* @ex *).
The generated files restate them as Theorem NAME / Example NAME_ex, closed by exact."""
import re, os, json, sys
root = os.path.dirname(os.path.dirname(os.path.abspath(__file__)))
th = os.path.join(root, 'rocq', 'theories')
order = [l.strip() for l in open(os.path.join(root, 'tools', 'order.txt')) if l.strip() and not l.startswith('#')]
status = json.load(open(os.path.join(root, 'tools', 'status.json')))
files, claims, errs = [], {}, []
defs = set()
for f in order:
    defs |= set(re.findall(r'^\s*(?:Definition|Fixpoint|Lemma|Inductive|Record|Theorem|Notation) (\w+)', open(os.path.join(th, f + '.v')).read(), re.M))
seen = {}
for f in order:
    files.append(f + '.v')
    src = open(os.path.join(th, f + '.v')).read()
    items = []
    pos = 0
    pat = re.compile(r'\(\* @(prop (C\d+) (.*?)|ex) \*\)\s*\n(Lemma|Theorem) (\w+)_lem\s*:(.*?)\nProof\.', re.S)
    nmark = len(re.findall(r'\(\* @(?:prop|ex)\b', src))
    for m in pat.finditer(src):
        items.append((m.group(2), m.group(3), m.group(5), m.group(6).rstrip()))
    if nmark != len(items): errs.append('%s: %d markers, %d extracted' % (f, nmark, len(items)))
    if not items: continue
    imports = re.findall(r'^From .*? Require (?:Import|Export) .*?\.\s*$', src, re.M)
    imports = [i.strip() for i in imports]
    extra = [m for m in re.findall(r'^(?:Local )?(?:Open Scope|Import) .*?\.\s*$', src, re.M)]
    imports += ['From Verif Require Import %s.' % f] + [e.strip() for e in extra]
    name = 'Properties_' + f.replace('Props', '')
    out = ['(** Generated by tools/gen.py from %s.v: property theorems only. *)' % f] + imports + ['Set Implicit Arguments.', '']
    for prop, text, nm, stmt in items:
        if nm in seen: errs.append('duplicate %s in %s and %s' % (nm, f, seen[nm]))
        seen[nm] = f
        if nm in defs: errs.append('%s: name %s clashes' % (f, nm))
        if prop:
            assert stmt.rstrip().endswith('.'), (f, nm)
            out.append('(** %s. %s *)\nTheorem %s :%s\nProof. exact (@%s_lem). Qed.\nPrint Assumptions %s.\n' % (prop, text, nm, stmt, nm, nm))
            claims.setdefault(prop, []).append(nm)
        else:
            out.append('(** The hypotheses are met by a concrete case. *)\nExample %s :%s\nProof. exact (@%s_lem). Qed.\n' % (nm, stmt, nm))
    # every prop has an example
    names = [i[2] for i in items]
    for prop, _, nm, _ in items:
        if prop and nm + '_ex' not in names and not nm.endswith('_refuted'): errs.append('%s: no example for %s' % (f, nm))
    open(os.path.join(th, name + '.v'), 'w').write('\n'.join(out))
    files.append(name + '.v')
open(os.path.join(root, 'rocq', '_CoqProject'), 'w').write('-Q theories Verif\n' + ''.join('theories/%s\n' % x for x in files))
props = [json.loads(l)['id'] for l in open(os.path.join(root, 'properties.jsonl'))]
man = []
for p in props:
    st = status.get(p, {})
    ths = claims.get(p, [])
    if not ths and not st: continue
    s = st.get('status') or ('proved' if ths else 'not_applicable')
    if 'status' not in st and all(t.endswith('_partial') for t in ths): s = 'partial'
    man.append({'property': p, 'status': s, 'theorems': ths, 'note': st.get('note', '')})
json.dump({'claims': man}, open(os.path.join(root, 'MANIFEST.json'), 'w'), indent=1)
on_disk = {x for x in os.listdir(th) if x.endswith('.v')}
miss = on_disk - set(files)
if miss: errs.append('not in project: %s' % sorted(miss))
print('%d theorems, %d examples, %d properties covered, missing: %s' % (sum(len(v) for v in claims.values()), sum(1 for n in seen if n.endswith('_ex')), len(claims), [p for p in props if p not in claims]))
for e in errs: print('ERR', e)
sys.exit(1 if errs else 0)
