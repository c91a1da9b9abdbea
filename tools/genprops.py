#!/usr/bin/env python3
"""Writes the Prop*.v files: the property theorems, each followed by Print Assumptions and its examples.

A theorem CNN_x restates the lemma cNN_x of a Spec*.v file with its section context spelled out.
The examples come from tools/examples/<Prop file>.txt, in blocks headed "@@ CNN_x".
A block headed "@@ ..." that names no lemma is copied as it stands (refutations live there).
Usage: genprops.py [Prop file ...]"""
import re, subprocess, sys, os
ROOT = os.path.dirname(os.path.dirname(os.path.abspath(__file__)))
TH = ROOT + '/rocq/theories/'

SETCTX = [('E : Env', ''), ('HE : EnvOk E', 'EnvOk E ->'), ('T : Type', ''), ('K : Key T', ''),
          ('vok : T -> Prop', ''), ('KO : KeyOk K vok', 'KeyOk K vok ->')]
FILES = {
 # output: (title, imports, [(spec file, lemma prefixes)], partial lemmas)
 'PropSet': ('the set API (C01-C16)', 'Coq:Sorting.Sorted Base Bits Env EnvFacts Node Iter Tree SetApi GoHeap Ordered MapApi GroupFacts Reach Spec SpecSet ExampleData',
     [('SpecSet', [f'c{i:02d}' for i in range(1, 17)])], set()),
 'PropMap': ('the map API (C21-C28, C43)', 'Base Bits Env EnvFacts Node Iter Tree SetApi GoHeap Ordered MapApi GroupFacts Reach Spec SpecSet SpecMap ExampleData',
     [('SpecMap', ['c21', 'c22', 'c23', 'c24', 'c25', 'c26', 'c27', 'c28', 'c43'])], set()),
 'PropBits': ('the trie\'s shape, masks, Iota and the hasher (C29, C31-C34)', 'Coq:Sorting.Sorted Base Bits Env EnvFacts Node Iter Tree SetApi MapApi BitFacts ExtraFacts Reach Spec SpecSet SpecBits ExampleData',
     [('SpecBits', ['c29', 'c31', 'c32', 'c33', 'c34'])], {'c32_without_zero'}),
 'PropPanic': ('when Union, Merge and Update panic (C19)', 'Base Bits Env EnvFacts Node Iter Tree SetApi GoHeap Ordered MapApi GroupFacts Reach Spec SpecSet SpecMap ExampleData',
     [('SpecSet', ['c19']), ('SpecMap', ['c19'])], {'c19_union_exact', 'c19_no_triples', 'c19_merge_exact'}),
}
if os.path.exists(ROOT + '/tools/genconf.py'):
    exec(open(ROOT + '/tools/genconf.py').read())

def lemmas(spec, prefixes):
    """Yields (name, binders, statement, scope, context string)."""
    s = open(TH + spec + '.v').read()
    scope = None
    stack = [[]]
    tok = re.compile(r'^Local Open Scope (\w+)\.|^Section (\w+)\.|^End (\w+)\.|^Context (.*?)\.$|^(?:Lemma|Theorem) (\w+)(.*?)\.\nProof\b', re.M | re.S)
    for m in tok.finditer(s):
        if m.group(1): scope = m.group(1)
        elif m.group(2): stack.append([])
        elif m.group(3): stack.pop()
        elif m.group(4): stack[-1] += re.findall(r'[{(\[]([^{}()\[\]]*(?:\([^()]*\)[^{}()]*)*)[})\]]', m.group(4))
        elif m.group(5):
            n = m.group(5)
            if n[:3] in prefixes and re.match(r'c\d\d_', n):
                body = m.group(6)
                # split binders from the statement at the first top-level " :"
                d = 0
                for i, c in enumerate(body):
                    if c in '({[': d += 1
                    elif c in ')}]': d -= 1
                    elif c == ':' and d == 0 and body[i-1] in ' \n':
                        break
                yield n, body[:i].strip(), body[i+1:].strip(), scope, sum(stack, [])

def checks(imports, names):
    txt = f'From Verif Require Import {imports}.\nSet Printing Width 100000.\nSet Printing Depth 100000.\n'
    txt += ''.join(f'Check @{n}.\n' for n in names)
    open('/tmp/gp_check.v', 'w').write(txt)
    out = subprocess.run(['coqtop', '-Q', TH, 'Verif', '-batch', '-l', '/tmp/gp_check.v'], capture_output=True, text=True)
    if out.returncode: sys.exit(out.stdout + out.stderr)
    r = {}
    for blk in re.split(r'\n(?=@?c\d\d_)', '\n' + out.stdout):
        m = re.match(r'@?(c\d\d_\w+)\s*:\s*(.*)', blk.strip(), re.S)
        if m: r[m.group(1)] = ' '.join(m.group(2).split())
    return r

def main():
    for out in (sys.argv[1:] or FILES):
        title, imports, specs, partial = FILES[out]
        coq = [i[4:] for i in imports.split() if i.startswith('Coq:')]
        imps = ' '.join(i for i in imports.split() if not i.startswith('Coq:'))
        ls = [(sp,) + l for sp, pf in specs for l in lemmas(sp, pf)]
        ty = checks(imps, [l[1] for l in ls])
        ex, order = {}, []
        p = f'{ROOT}/tools/examples/{out}.txt'
        if os.path.exists(p):
            for blk in re.split(r'^@@ ', open(p).read(), flags=re.M)[1:]:
                h, _, b = blk.partition('\n')
                ex[h.strip()] = b.strip('\n')
        res = f'(** * {out}: {title}.\n\n    Generated by tools/genprops.py from {", ".join(sp + ".v" for sp, _ in specs)} and tools/examples/{out}.txt.\n    Every theorem is followed by a case that meets its hypotheses. *)\n'
        for c in coq: res += f'From Coq Require Import {c}.\n'
        res += f'From Verif Require Import {imps}.\n'
        cur = None
        used = set()
        if 'Preamble' in ex: res += '\n' + ex['Preamble'] + '\n'; used.add('Preamble')
        for sp, n, binders, stmt, scope, ctx in ls:
            if scope != cur:
                res += f'\nLocal Open Scope {scope}.\n'; cur = scope
            t = ty[n]
            head = []
            for c in ctx:
                nm, _, tp = c.partition(':')
                nm, tp = nm.split(), tp.strip()
                for v in nm:
                    bound = re.search(r'\b' + re.escape(v) + r'\b', t)
                    nondep = (f'{tp} ->' in t)
                    if v in ('HE', 'KO', 'KUO', 'KVO') or tp.startswith('KeyOk') or tp.startswith('EnvOk'):
                        keep = nondep
                    elif tp.startswith('RelValOk'):
                        keep = 'RelValOk' in t
                    else:
                        keep = bool(bound) or nondep
                    if keep: head.append('{%s : %s}' % (v, tp))
            N = 'C' + n[1:]
            if n in partial: N += '_partial'
            b = ' '.join(head) + ('\n    ' if head and binders else '') + binders
            stmt2 = stmt
            if b.strip():
                st = f'forall {b},\n  {stmt2}'
            else:
                st = stmt2
            res += f'\nTheorem {N} : {st}.\nProof. exact @{n}. Qed.\nPrint Assumptions {N}.\n'
            if N in ex:
                res += ex[N] + '\n'; used.add(N)
            else:
                print(f'{out}: no example for {N}')
        for h in ex:
            if h not in used:
                res += '\n' + ex[h] + '\n'
        # keep binder blocks readable
        open(TH + out + '.v', 'w').write(res)
main()
