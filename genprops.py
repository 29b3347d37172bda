#!/usr/bin/env python3
"""Generates rocq/theories/C_X.v (property theorems only) from the lemmas cNN_* of rocq/theories/P_XProps.v.
usage: genprops.py X 'header comment'  -- every  Lemma cNN_name : stmt. Proof. ... Qed.  of P_XProps.v
becomes  Theorem CNN_name : stmt. Proof. exact cNN_name. Qed. Print Assumptions CNN_name.
Examples named cNN_* become Example CNN_*, with the doc comment preceding each copied."""
import re,sys,os
os.chdir(os.path.join(os.path.dirname(os.path.abspath(__file__)),'rocq/theories'))
X,head=sys.argv[1],sys.argv[2]
s=open(f'P_{X}Props.v').read()
req=re.findall(r'^(?:From .*?|Open Scope .*?|Local Open Scope .*?|Import .*?)\.\s*$',s,re.M|re.S)
out=[f'(** {head} *)']
hdr=s[:re.search(r'^(Lemma|Definition|Fixpoint|Example|#\[|Section|Ltac|Add)',s,re.M).start()]
out+=[l for l in re.findall(r'^(?:From [^.]*?Require(?:[^.]|\.(?!\s))*\.|(?:Local )?Open Scope \w+\.)',hdr,re.M)]
out.insert([i for i,l in enumerate(out) if l.startswith('From Verif')][-1]+1, f'From Verif Require Import P_{X}Props.')
out.append('')
for m in re.finditer(r'((?:^\(\*\*(?:(?!\*\)).)*\*\)\s*\n)?)^(Lemma|Theorem|Example) (c\d{2,3}_\w+)\b(.*?)\.\s*\n?\s*Proof\.',s,re.M|re.S):
    doc,kind,name,st=m.groups()
    N='C'+name[1:]
    k='Example' if kind=='Example' else 'Theorem'
    if doc: out.append(doc.strip())
    out.append(f'{k} {N}{st.rstrip()}.\nProof. exact {name}. Qed.'+('' if k=='Example' else f'\nPrint Assumptions {N}.'))
open(f'C_{X}.v','w').write('\n'.join(out)+'\n')
print(f'C_{X}.v', sum(o.startswith('Theorem') for o in out),'theorems')
