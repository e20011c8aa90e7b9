#!/usr/bin/env python3
"""Writes rocq/theories/Properties.v: every lemma cNN_x of Docs*.v restated as
theorem CNN_x, with the comment before it and Print Assumptions."""
import re, os, glob, sys
base = os.path.join(os.path.dirname(os.path.abspath(__file__)), '..', 'rocq', 'theories')
out = ['(** Generated by tools/gen_properties.py from Docs*.v: the property theorems, their',
       '    statements only.  [Print Assumptions] after each theorem lists what it rests on. *)',
       '']
mods = sorted(os.path.basename(f)[:-2] for f in glob.glob(os.path.join(base, 'Docs*.v')))
hdr = open(os.path.join(base, mods[0] + '.v')).read()
out.append('From Verif Require Import Spec Model Infra Total Safe Refine Main Api ApiProofs History ApiFacts')
out.append('  Outcome DenFacts Closed Accept Complete Order Calls Members Round Blank Access Findings')
extra = [m for m in sys.argv[1:]]
if extra: out.append('  ' + ' '.join(extra))
out.append('  ' + ' '.join(mods) + '.')
out += ['From Coq Require Import Permutation.', 'Local Open Scope string_scope.', '']
names = []
examples = re.findall(r'^Example (ex_\w+)', open(os.path.join(base, 'Examples.v')).read(), flags=re.M)
seen = set()
for m in mods:
    t = open(os.path.join(base, m + '.v')).read()
    for mt in re.finditer(r'((?:\(\*\*(?:(?!\*\)).)*\*\)\s*)?)Lemma (c(\d\d)_\w+)\s*:\s*(.*?)\nProof\.', t, flags=re.S):
        com, nm, num, st = mt.groups()
        com = com.strip()
        if com.startswith('(** **'): com = ''
        T = 'C' + nm[1:]
        if num not in seen:
            seen.add(num)
            ex = [e for e in examples if re.search('C' + num + r'(_|$)', e)]
            if ex: out.append('(* C%s.  Concrete cases: Examples.v, %s. *)' % (num, ', '.join(ex)))
        if com: out.append(com)
        out.append('Theorem %s : %s' % (T, st.strip()))
        out.append('Proof. exact (@%s). Qed.' % nm)
        out.append('Print Assumptions %s.' % T)
        out.append('')
        names.append(T)
open(os.path.join(base, 'Properties.v'), 'w').write('\n'.join(out) + '\n')
print(len(names), 'theorems')
for n in names: print(n)
