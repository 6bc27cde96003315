#!/usr/bin/env python3
"""Split tools/props/X.src into rocq/theories/XThms.v (lemmas with their proofs) and
rocq/theories/PropsX.v (the same statements, each closed by `exact`, with Print Assumptions,
and the examples).  Usage: genprops.py X..."""
import re, sys, os
root = os.path.dirname(os.path.dirname(os.path.abspath(__file__)))
BLOCK = re.compile(r'(Theorem|Example)\s+(\w+)(.*?)\.\s*\nProof\.(.*?)\b(Qed|Defined)\.', re.S)
for name in sys.argv[1:]:
    src = open(f'{root}/tools/props/{name}.src').read()
    head, body = src.split('(*BODY*)', 1)
    doc, imports = head.split('(*IMPORTS*)', 1)
    thms = [doc.rstrip(), '', f'(* Generated from tools/props/{name}.src: the proofs behind Props{name}.v. *)', imports.strip(), '']
    props = [doc.rstrip(), '', f'(* Generated from tools/props/{name}.src; the proofs are in {name}Thms.v. *)',
             imports.strip(), f'From Verif Require Import {name}Thms.', '']
    pos = 0
    for m in BLOCK.finditer(body):
        pre = body[pos:m.start()].strip('\n')
        pos = m.end()
        kind, nm, stmt, pf, _ = m.groups()
        if pre.strip(): props.append(pre)
        if kind == 'Theorem':
            assert stmt.lstrip().startswith(':'), nm
            thms.append(f'Lemma pf_{nm}{stmt}.\nProof.{pf}Qed.\n')
            props.append(f'Theorem {nm}{stmt}.\nProof. exact pf_{nm}. Qed.\nPrint Assumptions {nm}.\n')
        else:
            props.append(m.group(0) + '\n')
    rest = body[pos:].strip()
    if rest: props.append(rest)
    open(f'{root}/rocq/theories/{name}Thms.v', 'w').write('\n'.join(thms).rstrip() + '\n')
    open(f'{root}/rocq/theories/Props{name}.v', 'w').write('\n'.join(props).rstrip() + '\n')
