#!/usr/bin/env python3
"""Regenerates section 4 of DESIGN.md (axioms of every property theorem) from Print Assumptions.
Needs a built /verif/rocq tree.  The property files are compiled in a scratch directory; each theorem of a
property file is followed by a Print Assumptions command (added here where it is missing)."""
import re,os,subprocess,sys,tempfile,collections
V=os.path.dirname(os.path.dirname(os.path.abspath(__file__)))
T=os.path.join(V,'rocq','theories')
SHORT={'ClassicalDedekindReals.sig_not_dec':'sig_not_dec','ClassicalDedekindReals.sig_forall_dec':'sig_forall_dec',
 'FunctionalExtensionality.functional_extensionality_dep':'functional_extensionality_dep','Classical_Prop.classic':'classic'}
groups=collections.OrderedDict()
tmp=tempfile.mkdtemp()
for f in sorted(os.listdir(T)):
    if not re.match(r'Props_.*\.v$',f): continue
    src=open(os.path.join(T,f)).read()
    src=re.sub(r'^Print Assumptions .*$','',src,flags=re.M)
    names=re.findall(r'^Theorem (C\d{2,3}_\w+)',src,flags=re.M)
    src+='\nRequire Import Coq.Strings.String.\n'
    for n in names: src+='Eval cbv in ("@@%s")%%string.\nPrint Assumptions %s.\n'%(n,n)
    b='Ax_'+f[:-2]
    open(os.path.join(tmp,b+'.v'),'w').write(src)
    out=subprocess.run(['coqc','-Q',T,'Verif',b+'.v'],cwd=tmp,capture_output=True,text=True)
    if out.returncode: sys.exit(f+': '+out.stderr[-800:])
    parts=re.split(r'= "@@(\w+)"%string\s*: string',out.stdout)
    got={}
    for n,body in zip(parts[1::2],parts[2::2]):
        ax=re.findall(r'^([A-Za-z_][\w.\']*)\s*(?::|$)',body,flags=re.M)
        ax=[a for a in ax if a not in('Axioms','Closed')]
        got[n]=() if 'Closed under the global context' in body else tuple(sorted(SHORT.get(a,a) for a in ax))
    for n in names:
        assert n in got,(f,n)
        groups.setdefault(got[n],[]).append(n)
txt='<!-- generated by tools/axioms.py -->\n'
for ax in sorted(groups,key=lambda a:(len(a),a)):
    txt+='\n**'+(', '.join('`%s`'%a for a in ax) if ax else 'No axioms (closed under the global context)')+'** (%d theorems): '%len(groups[ax])
    txt+=', '.join(sorted(groups[ax]))+'.\n'
txt+='\n<!-- end generated -->'
D=os.path.join(V,'DESIGN.md')
s=open(D).read()
s=re.sub(r'<!-- generated by tools/axioms.py -->.*?<!-- end generated -->',lambda m:txt,s,flags=re.S)
open(D,'w').write(s)
print({len(a):len(g) for a,g in groups.items()},sorted({x for a in groups for x in a}))
