#!/usr/bin/env python3
"""Transcribes the butterfly kernels of /repo/src/otfft_avxdi{f,t}{4,8,16}{,omp}.h into Coq.

Every C++ statement is evaluated symbolically, SIMD lane by SIMD lane.  The tool refuses to emit
anything unless all lanes of a vector block perform the same scalar computation (shifted by the lane
number) and all loads of a block precede all of its stores.  It is a convenience, not part of the proof:
its output is the model, to be read against the cited lines.
usage: kernels.py REPO OUTDIR
"""
import re, sys, os, textwrap
REPO, OUT = sys.argv[1], sys.argv[2]

def preprocess(path):
    """(line number, text) with the inactive branches of #if 0 / #if 1 / #ifdef DO_SINGLE_THREAD removed"""
    out, st = [], []
    for no, t in enumerate(open(path).read().split('\n'), 1):
        s = t.strip()
        m = re.match(r'#\s*(if|ifdef|ifndef|else|endif|elif)\b(.*)', s)
        if m:
            k, a = m.group(1), m.group(2).strip()
            if k == 'if':
                assert a in ('0', '1'), (path, no, a); st.append(a == '1')
            elif k == 'ifdef': st.append(a != 'DO_SINGLE_THREAD' and False)
            elif k == 'ifndef': st.append(True)
            elif k == 'else': st[-1] = not st[-1]
            elif k == 'endif': st.pop()
            else: raise Exception(k)
            continue
        if all(st): out.append((no, re.sub(r'//.*', '', t)))
    return out

TOK = re.compile(r'\s*(0x[0-9a-fA-F]+|\d+|[A-Za-z_]\w*|[-+*/%()\[\]<>,?:=;{}!&])')
def tokenize(s):
    r, i = [], 0
    s = s.strip()
    while i < len(s):
        m = TOK.match(s, i); assert m, s[i:]
        r.append(m.group(1)); i = m.end()
    return r

TEMPL = {'twid','twidT','scalepz','scalepz2','scaleez4'}
class P:
    def __init__(s, toks): s.t, s.i = toks, 0
    def pk(s): return s.t[s.i] if s.i < len(s.t) else None
    def nx(s): s.i += 1; return s.t[s.i-1]
    def ex(s, x): assert s.nx() == x, (x, s.t, s.i)
    def expr(s):
        a = s.term()
        while s.pk() in ('+','-'):
            o = s.nx(); a = (o, a, s.term())
        if s.pk() == '?':
            s.nx(); b = s.expr(); s.ex(':'); c = s.expr(); a = ('?', a, b, c)
        return a
    def term(s):
        a = s.un()
        while s.pk() in ('*','/','%'):
            o = s.nx(); a = (o, a, s.un())
        return a
    def un(s):
        if s.pk() == '*': s.nx(); return ('deref', s.un())
        if s.pk() == '(':
            s.nx(); a = s.expr(); s.ex(')'); return a
        t = s.nx()
        if re.match(r'0x|\d', t): return ('int', int(t, 0))
        targs = None
        if t in TEMPL and s.pk() == '<':
            s.nx(); targs = [s.expr()]
            while s.pk() == ',': s.nx(); targs.append(s.expr())
            s.ex('>')
        if s.pk() == '(':
            s.nx(); args = []
            if s.pk() != ')':
                args = [s.expr()]
                while s.pk() == ',': s.nx(); args.append(s.expr())
            s.ex(')'); return ('call', t, targs, args)
        if s.pk() == '[':
            s.nx(); a = s.expr(); s.ex(']'); return ('idx', t, a)
        return ('var', t)
def parse(s):
    p = P(tokenize(s)); e = p.expr(); assert p.pk() is None, s; return e

# ---- linear forms -------------------------------------------------------------------------------
def lin(d, k=1): return {a: b*k for a, b in d.items() if b*k}
def ladd(a, b):
    r = dict(a)
    for k, v in b.items():
        r[k] = r.get(k, 0) + v
        if r[k] == 0: del r[k]
    return r
def lkey(a): return tuple(sorted(a.items()))

UN = {'add':'cadd','sub':'csub','mul':'cmul','jx':'jx','w8x':'w8x','v8x':'v8x','h1x':'h1x','h3x':'h3x','hfx':'hfx','hdx':'hdx','cnj':'cconj'}

def show(e):
    k = e[0]
    if k == 'int': return str(e[1])
    if k == 'var': return e[1]
    if k in ('+','*','-'): return '(%s %s %s)' % (show(e[1]), k, show(e[2]))
    if k == '/': return '(%s / %s)' % (show(e[1]), show(e[2]))
    if k == '%': return '(%s mod %s)' % (show(e[1]), show(e[2]))
    raise Exception(e)
def sh(e):
    r = show(e)
    return r[1:-1] if r.startswith('(') and r.endswith(')') else r

class Kernel:
    """one operator() body"""
    def __init__(s, name, file, lines, params, consts):
        s.name, s.file, s.params = name, file, params
        s.lines = lines; s.first, s.last = lines[0][0], lines[-1][0]
        s.ints = []          # (name, expr) template constants then locals, in order
        s.env = {}           # int name -> linear form
        s.ptr = {}           # ptr name -> (base, linear form)
        s.ptrdef = []
        for n in ('n','s','N','p','q','i','m','h'): s.env[n] = {n: 1}
        for b in ('x','y','W'): s.ptr[b] = (b, {})
        s.loops = []; s.omp = None; s.z = False
        s.L = 1; s.shiftvar = None
        s.vars = {}          # name -> list of lane trees
        s.loads = []; s.lets = []; s.stores = []
        s.vecs = []          # 32-byte accesses: (kind, base, key of the first cell)
        s.consts = []
        for n, e in consts: s.int_def(n, e); s.consts.append((n, e))
    def int_def(s, n, e):
        s.ints.append((n, e))
        l = s.linear(e)
        s.env[n] = l if (l is not None and n not in ('sp',)) else {n: 1}
    def linear(s, e):
        k = e[0]
        if k == 'int': return {'1': e[1]} if e[1] else {}
        if k == 'var': return s.env.get(e[1])
        if k == '+':
            a, b = s.linear(e[1]), s.linear(e[2]); return None if a is None or b is None else ladd(a, b)
        if k == '*':
            a, b = s.linear(e[1]), s.linear(e[2])
            if a is None or b is None: return None
            if set(a) <= {'1'}: return lin(b, a.get('1', 0))
            if set(b) <= {'1'}: return lin(a, b.get('1', 0))
            return None
        return None
    def shift(s, l, k):
        """linear form seen from k lanes further"""
        return ladd(l, {'1': k*l.get(s.shiftvar, 0)}) if s.shiftvar and k else l
    # addresses: (base, linear, text ptr, text offset)
    def addr(s, e):
        if e[0] == 'var':
            b, l = s.ptr[e[1]]; return (b, l, e[1], [])
        if e[0] == '+':
            b, l, t, o = s.addr(e[1]); d = s.linear(e[2]); assert d is not None, e
            return (b, ladd(l, d), t, o + [e[2]])
        if e[0] == 'call' and e[1] in ('twid','twidT'):
            r, N, k = e[2]; assert r[0] == 'int' and k[0] == 'int' and N == ('var','N')
            w, p = e[3]; assert w == ('var','W')
            d = s.linear(p)
            if e[1] == 'twid': l = ladd(d, {'@twid%d' % r[1]: k[1]-1})
            else: l = ladd(lin(d, r[1]), {'N': 1, '1': k[1]})
            return ('W', l, '%s %d N %d W %s' % (e[1], r[1], k[1], show(p)), None)
        raise Exception(e)
    def load(s, e, L):
        b, l, t, o = s.addr(e)
        return [('ld', b, lkey(ladd(l, {'1': j} if j else {})), (t, o, j)) for j in range(L)]
    def ev(s, e):
        k = e[0]
        if k == 'var': return [('v', e[1], j) for j in range(s.L)] if s.vars[e[1]] is None else s.vars[e[1]]
        if k == 'deref': return s.load(e[1], 1)*s.L
        if k == 'idx':
            return s.load(('+', ('var', e[1]), e[2]), 1)*s.L
        assert k == 'call', e
        f, a = e[1], e[3]
        if f in ('getpz2','getez4','getpz'):
            L = {'getpz2':2,'getez4':4,'getpz':1}[f]; assert L == s.L, (f, s.L)
            if f == 'getpz': return s.ev(a[0])
            b, l, _, _ = s.addr(a[0])
            for j in range(0, L, 2): s.vecs.append(('ld', b, lkey(ladd(l, {'1': j} if j else {}))))
            return s.load(a[0], L)
        if f in ('dupez5','duppz3'):
            assert s.L == (4 if f == 'dupez5' else 2); return s.ev(a[0])
        if f == 'conj': return [('op','cconj',(v,)) for v in s.ev(a[0])]
        if f in ('catlo','cathi'):
            A, B = s.ev(a[0]), s.ev(a[1]); assert s.L == 2
            i = 0 if f == 'catlo' else 1
            return [A[i], B[i]]
        if f in ('scalepz','scalepz2'):
            assert (f == 'scalepz2') == (s.L == 2) and e[2][1] == ('var','mode')
            return [('op', 'scalepz %s mode' % show(e[2][0]), (v,)) for v in s.ev(a[0])]
        m = re.match(r'(add|sub|mul|jx|w8x|v8x|h1x|h3x|hfx|hdx|cnj)(pz|pz2|ez4)$', f); assert m, f
        assert {'pz':1,'pz2':2,'ez4':4}[m.group(2)] == s.L, (f, s.L)
        vs = [s.ev(b) for b in a]
        return [('op', UN[m.group(1)], tuple(v[j] for v in vs)) for j in range(s.L)]
    def shv(s, t, k):
        if t[0] == 'v': return ('v', t[1], t[2]+k)
        if t[0] == 'ld': return ('ld', t[1], lkey(s.shift(dict(t[2]), k)))
        return ('op', t[1], tuple(s.shv(u, k) for u in t[2]))
    def lanewise(s, v):
        return all(s.shv(v[0], j) == s.shv(v[j], 0) for j in range(s.L))
    # statements
    def stmt(s, no, t):
        t = t.strip()
        if not t: return
        m = re.match(r'const int (\w+)\s*=\s*(.*)$', t)
        if m:
            n, e = m.group(1), parse(m.group(2))
            if n in ('p','q'): s.flat.append((n, e)); return
            s.int_def(n, e); return
        m = re.match(r'complex_vector (\w+)\s*=\s*(.*)$', t)
        if m:
            n, e = m.group(1), parse(m.group(2))
            if e == ('?', ('var','eo'), ('var','y'), ('var','x')):
                s.z = True; s.ptr['z'] = ('z', {}); return
            b, l, tx, o = s.addr(e); s.ptr[n] = (b, l); s.ptrdef.append((n, tx, o)); return
        m = re.match(r'const (ymm|emm|xmm)\s+(\w+)\s*=\s*(.*)$', t)
        if m:
            L = {'xmm':1,'ymm':2,'emm':4}[m.group(1)]
            assert L == s.L, (t, s.L)
            n = m.group(2); v = s.ev(parse(m.group(3)))
            if s.lanewise(v):
                assert not s.stores or not hasld(v[0]), ('load after store', s.name, no)
                s.vars[n] = None; s.lets.append((n, v[0]))
            else:
                assert not s.stores or not any(map(hasld, v)), ('load after store', s.name, no)
                s.vars[n] = v
            return
        m = re.match(r'(setpz2|setez4|setpz)\((.*)\)$', t)
        if m:
            p = P(tokenize(m.group(2))); a = p.expr(); p.ex(','); v = s.ev(p.expr()); assert p.pk() is None
            if m.group(1) == 'setpz': assert a[0] == 'idx'; a = ('+', ('var', a[1]), a[2]); assert s.L == 1
            assert s.L == {'setpz':1,'setpz2':2,'setez4':4}[m.group(1)]
            assert not any(map(hasld, v)), ('load in store', s.name, no)
            b, l, tx, o = s.addr(a)
            if s.L > 1:
                for j in range(0, s.L, 2): s.vecs.append(('st', b, lkey(ladd(l, {'1': j} if j else {}))))
            for j in range(s.L): s.stores.append((b, ladd(l, {'1': j} if j else {}), (tx, o, j), v[j]))
            return
        if t in ('zeroupper()',): return
        raise Exception((no, t))

def hasld(t): return t[0] == 'ld' or (t[0] == 'op' and any(hasld(u) for u in t[2]))
def lanes(t):
    if t[0] == 'v': return {t[2]}
    return set().union(*[lanes(u) for u in t[2]])

def statements(lines):
    """split on ; { } keeping line numbers"""
    out, cur, no0 = [], '', None
    depth = 0
    for no, t in lines:
        t = t.strip()
        if t.startswith('#pragma'):
            out.append((no, t)); continue
        for ch in t + ' ':
            if ch == '(' : depth += 1
            if ch == ')' : depth -= 1
            if (ch in '{}' or (ch == ';' and depth == 0)):
                if cur.strip(): out.append((no0 or no, cur.strip()))
                if ch in '{}': out.append((no, ch))
                cur, no0 = '', None
            else:
                if not cur.strip() and ch.strip(): no0 = no
                cur += ch
    return out

def find_struct(lines, hdr):
    idx = [i for i, (no, t) in enumerate(lines) if re.sub(r'\s+', ' ', t.strip()) == hdr]
    assert len(idx) == 1, (hdr, idx)
    i = idx[0]; d = 0; body = []
    for no, t in lines[i+1:]:
        body.append((no, t)); d += t.count('{') - t.count('}')
        if d == 0 and '}' in t: break
    return lines[i][0], body

def kernel(file, lines, ns, what, shape, r):
    """what: fwdcore/invcore/fwdend/invend; shape: 'ns','N1','rs','r1'"""
    hdr = {'ns': 'template <int n, int s> struct %s' % what, 'N1': 'template <int N> struct %s<N,1>' % what,
           'rs': 'template <int s, bool eo, int mode> struct %s<%d,s,eo,mode>' % (what, r),
           'r1': 'template <bool eo, int mode> struct %s<%d,1,eo,mode>' % (what, r)}[shape]
    no0, body = find_struct(lines, hdr)
    consts, rest = [], []
    for no, t in body:
        m = re.match(r'\s*static constexpr int (\w+)\s*=\s*(.*);\s*$', t)
        if m: consts.append((m.group(1), parse(m.group(2))))
        else: rest.append((no, t))
    # drop up to the opening brace of operator()
    j = next(i for i, (no, t) in enumerate(rest) if 'operator()' in t)
    while '{' not in rest[j][1]: j += 1
    last = body[-1][0]
    rest = rest[j+1:-2]
    name = '%s_%s%s' % (ns, what, {'ns':'', 'N1':'1', 'rs':str(r), 'r1':'%d_1' % r}[shape])
    k = Kernel(name, file, [(no0,''),(last,'')], shape, consts); k.first, k.last = no0, last
    k.lines = rest; k.r = r; k.shape = shape
    k.flat = []
    sts = statements(rest)
    txt = ' '.join(t for _, t in sts)
    k.L = 4 if 'emm ' in txt else 2 if 'ymm ' in txt else 1
    fl = [t for _, t in sts if t.startswith('for')]
    k.shiftvar = None if shape == 'r1' else 'p' if shape == 'N1' else 'q'
    for no, t in sts:
        if t in '{}': continue
        m = re.match(r'for \(int (\w+) = 0; \1 < ([\w/]+); \1(\+\+| \+= (\d+))\)$', t)
        if m: k.loops.append((m.group(1), parse(m.group(2)), int(m.group(4) or 1))); continue
        if t.startswith('#pragma'): k.omp = t; continue
        k.stmt(no, t)
    return k

COQNAMES = {'C':'C_','fun':'fun_','end':'end_','in':'in_','as':'as_','at':'at_'}
def nm(n): return COQNAMES.get(n, n)

def emit(k, out):
    # loads
    loads = []   # (base, key, text, name)
    lets = []
    def tree(t, hint):
        if t[0] == 'v': assert t[2] == 0; return nm(t[1])
        if t[0] == 'ld':
            for (b, ky, tx, n) in loads:
                if (b, ky) == (t[1], t[2]): return n
            n = nm(hint) + '_in'; assert n not in [l[3] for l in loads], (k.name, n)
            loads.append((t[1], t[2], t[3], n)); return n
        return '%s %s' % (t[1], ' '.join(paren(tree(u, hint)) for u in t[2]))
    for n, t in k.lets:
        if t[0] == 'ld':
            assert (t[1], t[2]) not in [(l[0], l[1]) for l in loads]
            loads.append((t[1], t[2], t[3], nm(n)))
        else: lets.append((nm(n), tree(t, n)))
    # stores per lane
    per = {}
    for b, l, tx, v in k.stores:
        ln = lanes(v); assert len(ln) == 1, (k.name, ln)
        j = ln.pop()
        per.setdefault(j, []).append((b, lkey(k.shift(l, -j)), tx, k.shv(v, -j)))
    assert set(per) == set(range(k.L)), (k.name, sorted(per))
    key = lambda x: (x[0], x[1], x[3])
    for j in per: assert sorted(map(key, per[j])) == sorted(map(key, per[0])), (k.name, j)
    def order(ky):
        d = dict(ky); return (d.get('N1', 0), d.get('s', 0), d.get('@twid%d' % k.r, 0), d.get('1', 0))
    loads.sort(key=lambda l: (0 if l[0] == 'W' else 1, order(l[1])))
    sts = sorted(per[0], key=lambda x: order(x[1]))
    def atxt(tx):
        t, o, j = tx
        if o is None: assert j == 0; return t
        o = [show(e) for e in o] + ([str(j)] if j else [])
        if not o: return t
        return '%s +! %s' % (t, o[0] if len(o) == 1 else '(%s)' % ' + '.join(o))
    VEC.append((k, sum(l[0] == 'W' for l in loads), vec_modes(k, loads, sts)))
    mode = '(mode : smode) ' if k.shape in ('rs','r1') else ''
    Narg = '(N : nat) ' if k.shape == 'rs' else ''
    fa = ('N mode' if k.shape == 'rs' else 'mode') if mode else ''
    w = out.append
    w('(** %s : src/%s:%d-%d, the arithmetic of one lane *)' % (k.name, k.file, k.first, k.last))
    w('Definition %s_fn %s%s(v : list C) : list C :=' % (k.name, Narg, mode))
    w('  match v with')
    w('  | [%s] =>' % '; '.join(l[3] for l in loads))
    for n, t in lets: w('      let %s := %s in' % (n, t))
    w('      [%s]' % '; '.join(tree(s[3], '') for s in sts))
    w('  | _ => []')
    w('  end.')
    # lane
    largs = {'ns':'(n s : nat) (x y W : ptr) (p q : nat)', 'N1':'(N : nat) (x y W : ptr) (p : nat)',
             'rs':'(mode : smode) (s : nat) (eo : bool) (x y : ptr) (q : nat)', 'r1':'(mode : smode) (eo : bool) (x y : ptr)'}[k.shape]
    w('(** %s : the addresses of one lane *)' % k.name)
    w('Definition %s_lane %s : lane C :=' % (k.name, largs))
    used = lambda n, body: re.search(r'\b%s\b' % n, body)
    tail = []
    if k.z: tail.append('  let z := if eo then y else x in')
    for n, t, o in k.ptrdef: tail.append('  let %s := %s in' % (n, atxt((t, o, 0))))
    tail.append('  Lane [%s]' % '; '.join(atxt(l[2]) for l in loads))
    tail.append('       [%s]' % '; '.join(atxt(s[2]) for s in sts))
    tail.append('       (%s).' % (k.name + '_fn' + (' ' + fa if fa else '')))
    body = '\n'.join(tail); keep = []
    for n, e in reversed(k.ints):
        if used(n, body):
            ln = '  let %s := %s in' % (n, sh(e)); keep.append(ln); body = ln + '\n' + body
    for ln in reversed(keep): w(ln)
    for t in tail: w(t)
    # program
    pargs = {'ns':'(n s : nat) (x y W : ptr)', 'N1':'(N : nat) (x y W : ptr)',
             'rs':'(mode : smode) (s : nat) (eo : bool) (x y : ptr)', 'r1':'(mode : smode) (eo : bool) (x y : ptr)'}[k.shape]
    call = '%s_lane %s' % (k.name, {'ns':'n s x y W','N1':'N x y W','rs':'mode s eo x y','r1':'mode eo x y'}[k.shape])
    ty = 'list (phase (V:=C))' if k.omp else 'prog C unit'
    if k.shape == 'r1':
        assert not k.loops and k.L == 1
        code = 'lblock (%s)' % call
        if k.omp: assert k.omp == '#pragma omp single'; code = '[single (%s)]' % code
        env = []
    elif k.shape == 'ns' and not k.omp:
        (v1, b1, s1), (v2, b2, s2) = k.loops; assert (v1, s1, v2, s2) == ('p', 1, 'q', k.L)
        code = 'for_ %s (fun p => for_step %s %d (fun q => vblock %d (fun l => %s p (q + l))))' % (paren(show(b1)), show(b2), s2, k.L, call)
    elif k.shape == 'ns':
        (v1, b1, s1), = k.loops; assert (v1, s1) == ('i', 1)
        fl = dict(k.flat)
        code = '[(%s, fun i => vblock %d (fun l => %s %s (%s + l)))]' % (show(b1), k.L, call, show(fl['p']), sh(fl['q']))
    else:
        (v1, b1, s1), = k.loops; assert (v1, s1) == (k.shiftvar, k.L)
        code = '%s %s %d (fun %s => vblock %d (fun l => %s (%s + l)))' % ('par_step' if k.omp else 'for_step', show(b1), s1, v1, k.L, call, v1)
        if k.omp: code = '[%s]' % code
    w('Definition %s %s : %s :=' % (k.name, pargs, ty))
    body = '  %s.' % code; keep = []
    for n, e in reversed(k.ints):
        if n in dict(k.consts) and used(n, body):
            ln = '  let %s := %s in' % (n, sh(e)); keep.append(ln); body = ln + '\n' + body
    for ln in reversed(keep): w(ln)
    w('  %s.' % code)
    w('')

VEC = []
def cells(k, ops):
    """operand list (base,key) of lane 0 -> cells of lane j"""
    return lambda j: [(b, lkey(k.shift(dict(ky), j))) for b, ky in ops]
def one(ky): return lkey(ladd(dict(ky), {'1': 1}))
def vec_modes(k, loads, sts):
    """how the 32-byte accesses of a block are made up of the operands of its lanes:
    S scalar, A across two lanes, W two neighbouring operands of one lane"""
    have = set(k.vecs); used = set(); res = []
    for kind, ops in (('ld', [(l[0], l[1]) for l in loads if l[0] == 'W']), ('ld', [(l[0], l[1]) for l in loads if l[0] != 'W']), ('st', [(x[0], x[1]) for x in sts])):
        c = cells(k, ops)
        def pairs(mode):
            if mode == 'S': return []
            if mode == 'A': return [p for h in range(k.L//2) for p in zip(c(2*h), c(2*h+1))]
            return [p for j in range(k.L) for p in zip(c(j)[0::2], c(j)[1::2])]
        ok = []
        for mode in 'AWS':
            if mode == 'A' and k.L < 2: continue
            ps = pairs(mode)
            if all(b == d and one(x) == y and (kind, b, x) in have for (b, x), (d, y) in ps) and (mode == 'S' or ps):
                ok.append(mode); break
        m = ok[0]; res.append(m)
        used |= {(kind, b, x) for (b, x), _ in pairs(m)}
    assert used == have, (k.name, have - used)
    return res
def paren(t): return '(%s)' % t if ' ' in t else t

def namespace(alg, r):
    out = []
    w = out.append
    Alg = alg.capitalize()
    w('(** * Radix-%d %s kernels, transcribed by tools/kernels.py' % (r, 'decimation-in-frequency' if alg == 'dif' else 'decimation-in-time'))
    w('')
    w('    Serial kernels: src/otfft_avx%s%d.h; kernels for a thread team (suffix o): src/otfft_avx%s%domp.h.' % (alg, r, alg, r))
    w('    Each kernel is [_fn] (what one SIMD lane computes from its loaded values), [_lane] (which addresses')
    w('    that lane loads and stores; loads are listed twiddles first and then in address order, and all of')
    w('    them precede the stores in the source too; twiddles hoisted out of the q loop are listed with the lane')
    w('    that uses them, the table being read-only here) and the loop nest around it.  A pragma omp for is one')
    w('    phase of a region; inactive preprocessor branches (if 0, DO_SINGLE_THREAD) are not modelled. *)')
    w('')
    w('From Coq Require Import List Arith.')
    w('From Verif Require Import Scalar Mem Omp Lanes Twid.')
    w('Import ListNotations.')
    w('')
    w('Section Model%s%d.' % (Alg, r))
    w('Context {Op : Ops}.')
    w('')
    for omp in ('', 'omp'):
        f = 'otfft_avx%s%d%s.h' % (alg, r, omp)
        lines = preprocess('%s/src/%s' % (REPO, f))
        ns = '%s%d%s' % (alg, r, 'o' if omp else '')
        for d in ('fwd', 'inv'):
            ks = [kernel(f, lines, ns, d+'core', 'ns', r), kernel(f, lines, ns, d+'core', 'N1', r)]
            for e in ([4, 2] if r == 4 else [r]):
                for sh_ in ('rs', 'r1'):
                    k = kernel(f, lines, ns, d+'end', sh_, e); k.r = e; ks.append(k)
            for k in ks: emit(k, out)
    w('End Model%s%d.' % (Alg, r))
    def wrap(l):
        if len(l) <= 118: return l
        ind = ' ' * (len(l) - len(l.lstrip()) + 2)
        return '\n'.join(textwrap.wrap(l, 118, initial_indent=l[:len(l) - len(l.lstrip())], subsequent_indent=ind, break_long_words=False, break_on_hyphens=False)) if not l.startswith('(*') else l
    open('%s/Model%s%d.v' % (OUT, Alg, r), 'w').write('\n'.join(map(wrap, out)) + '\n')

for alg in ('dif', 'dit'):
    for r in (4, 8, 16): namespace(alg, r)


# ---- the 32-byte accesses (ModelVec.v) --------------------------------------------------------------
def emit_vec():
    out = []; w = out.append
    w("""(** * The 32-byte memory accesses of the power-of-two kernels in the AVX builds, transcribed by tools/kernels.py

    getpz2/setpz2 are _mm256_load_pd/_mm256_store_pd (src/otfft_misc.h:727-745, USE_UNALIGNED_MEMORY is not defined),
    getez4/setez4 two of them at &a[0] and &a[2] (src/otfft_misc.h:1458-1470); every other access is by single
    complex numbers.  Each kernel's accesses are given as pairs of cells, made of the operands of its lanes in
    Model{Dif,Dit}{4,8,16}.v: [Across] the same operand of two neighbouring lanes, [Within] two consecutive operands
    of one lane, [Scalar] no 32-byte access.  The tool checks that these are exactly the calls of getpz2, setpz2,
    getez4 and setez4 in the source. *)

From Coq Require Import List Arith Bool.
From Verif Require Import Scalar Mem Omp Lanes Twid Vec.
From Verif Require Import ModelDif4 ModelDif8 ModelDif16 ModelDit4 ModelDit8 ModelDit16.
Import ListNotations.

Section ModelVec.
Context {Op : Ops}.
""")
    MD = {'A':'Across','W':'Within','S':'Scalar'}
    names = {}
    for k, nt, m in VEC:
        pargs = {'ns':'(n s : nat) (x y W : ptr)', 'N1':'(N : nat) (x y W : ptr)',
                 'rs':'(mode : smode) (s : nat) (eo : bool) (x y : ptr)', 'r1':'(mode : smode) (eo : bool) (x y : ptr)'}[k.shape]
        call = '%s_lane %s' % (k.name, {'ns':'n s x y W','N1':'N x y W','rs':'mode s eo x y','r1':'mode eo x y'}[k.shape])
        def vec(l): return 'vec %d %s %d (fun l => %s)' % (nt, ' '.join(MD[c] for c in m), k.L, l)
        if k.shape == 'r1': code = vec(call)
        elif k.shape == 'ns' and not k.omp:
            (v1, b1, s1), (v2, b2, s2) = k.loops
            code = 'vfor %s (fun p => vstep %s %d (fun q => %s))' % (paren(show(b1)), show(b2), s2, vec(call + ' p (q + l)'))
        elif k.shape == 'ns':
            (v1, b1, s1), = k.loops; fl = dict(k.flat)
            code = 'vfor %s (fun i => %s)' % (paren(show(b1)), vec('%s %s (%s + l)' % (call, show(fl['p']), sh(fl['q']))))
        else:
            (v1, b1, s1), = k.loops
            code = 'vstep %s %d (fun %s => %s)' % (paren(show(b1)), s1, v1, vec('%s (%s + l)' % (call, v1)))
        body = '  %s.' % code; keep = []
        for n, e in reversed(k.ints):
            if n in dict(k.consts) and re.search(r'\b%s\b' % n, body):
                ln = '  let %s := %s in' % (n, sh(e)); keep.append(ln); body = ln + '\n' + body
        w('(** src/%s:%d-%d *)' % (k.file, k.first, k.last))
        w('Definition %s_va %s : list (ptr * ptr) :=' % (k.name, pargs))
        for ln in reversed(keep): w(ln)
        w('  %s.' % code)
    w('')
    w('(** selection of the template specialisation, as in ModelPow.v *)')
    for a in ('dif', 'dit'):
      for o in ('', 'o'):
        for r in (4, 8, 16):
            p = '%s%d%s' % (a, r, o)
            w('Definition %s_core_va (inv : bool) (W : ptr) (n s : nat) (x y : ptr) : list (ptr * ptr) :=' % p)
            w('  if s =? 1 then (if inv then %s_invcore1_va n x y W else %s_fwdcore1_va n x y W)' % (p, p))
            w('  else (if inv then %s_invcore_va n s x y W else %s_fwdcore_va n s x y W).' % (p, p))
            w('Definition %s_end_va (inv : bool) (mode : smode) (n s : nat) (eo : bool) (x y : ptr) : list (ptr * ptr) :=' % p)
            for e in ([4, 2] if r == 4 else [r]):
                w('  if n =? %d then' % e)
                w('    if s =? 1 then (if inv then %s_invend%d_1_va mode eo x y else %s_fwdend%d_1_va mode eo x y)' % (p, e, p, e))
                w('    else (if inv then %s_invend%d_va mode s eo x y else %s_fwdend%d_va mode s eo x y) else' % (p, e, p, e))
            w('  [].' if r == 4 else '  %s%d%s_end_va inv mode n s eo x y.' % (a, r//2, o))
    w('End ModelVec.')
    def wrap(l):
        if len(l) <= 118 or '\n' in l: return l
        ind = ' ' * (len(l) - len(l.lstrip()) + 2)
        return '\n'.join(textwrap.wrap(l, 118, initial_indent=l[:len(l) - len(l.lstrip())], subsequent_indent=ind, break_long_words=False, break_on_hyphens=False))
    open('%s/ModelVec.v' % OUT, 'w').write('\n'.join(map(wrap, out)) + '\n')
emit_vec()
