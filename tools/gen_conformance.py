#!/usr/bin/env python3
"""Translates the static_assert tests of /repo/test into Coq examples
(rocq/theories/Conformance.v), so that the model is checked against the
expectations of the project itself."""
import re

T = '/repo/test/'
SRC = {}
def read(f):
    # comments inside the assertions are dropped
    SRC[f] = re.sub(r'\s// .*', '', open(T + f).read()) if f == 'parser_ast_tests.cpp' else open(T + f).read()
    return SRC[f]

CSTR = r'(?:R"\((?P<raw{0}>.*?)\)"|"(?P<esc{0}>(?:\\.|[^"\\])*)")'

def unescape(s):
    out, i = [], 0
    simple = {'n': 10, 'r': 13, 't': 9, 'a': 7, 'b': 8, 'v': 11, 'f': 12, '\\': 92, '"': 34, "'": 39}
    while i < len(s):
        if s[i] == '\\':
            if s[i+1] == 'x':
                j = i + 2
                while j < len(s) and s[j] in '0123456789abcdefABCDEF':
                    j += 1
                out.append(int(s[i+2:j], 16)); i = j
            elif s[i+1] in '01234567':
                j = i + 1
                while j < len(s) and j < i + 4 and s[j] in '01234567':
                    j += 1
                out.append(int(s[i+1:j], 8)); i = j
            else:
                out.append(simple[s[i+1]]); i += 2
        else:
            out.append(ord(s[i])); i += 1
    return out

def lit(m, k):
    r = m.group('raw%d' % k)
    return [ord(c) for c in r] if r is not None else unescape(m.group('esc%d' % k))

def coq(bs):
    if all(32 <= b < 127 for b in bs):
        return '(str "%s")' % ''.join('""' if b == 34 else chr(b) for b in bs)
    return '(map ascii_of_nat [%s])' % '; '.join(map(str, bs))

def coqchar(b):
    return '"%s"%%char' % (chr(b) if 32 <= b < 127 and b != 34 else '%03d' % b)

FL = {'icase': 'F_icase', 'dotall': 'F_dotall', 'multiline': 'F_multiline',
      'ungreedy': 'F_ungreedy', 'unroll': 'F_unroll'}
def flags(s):
    return '[' + '; '.join(FL[x] for x in re.findall(r'regex_flag::(\w+)', s or '')) + ']'

# ---- C++ type expressions ----
TOK = re.compile(r"\s*(?:((?!R\")[\w:]+)|('(?:\\.|[^'])+')|(\"(?:\\.|[^\"\\])*\")|(R\"\(.*?\)\")|([<>,]))")
def toks(s):
    i, out = 0, []
    while i < len(s):
        m = TOK.match(s, i)
        if not m:
            if s[i:].strip() == '': break
            raise Exception('tok ' + s[i:i+40])
        if m.group(1): out.append(('id', m.group(1)))
        elif m.group(2): out.append(('chr', unescape(m.group(2)[1:-1])[0]))
        elif m.group(3): out.append(('str', unescape(m.group(3)[1:-1])))
        elif m.group(4): out.append(('str', [ord(c) for c in m.group(4)[3:-2]]))
        else: out.append(('p', m.group(5)))
        i = m.end()
    return out
def parse_ty(ts, i):
    k, v = ts[i]
    i += 1
    args = None
    if i < len(ts) and ts[i] == ('p', '<'):
        args = []
        i += 1
        while ts[i] != ('p', '>'):
            a, i = parse_ty(ts, i)
            args.append(a)
            if ts[i] == ('p', ','): i += 1
        i += 1
    return (k, v, args), i

def quant(t):
    v = t[1].split('::')[-1]
    return 'Inf' if v == 'infinity' else '(Fin %s)' % t[2][0][1]
def num(t):
    return t[2][0][1]
NAMES = {'empty': 'Empty', 'wildcard': 'Wild', 'beginning_of_line': 'BeginLine',
         'beginning_of_input': 'BeginInput', 'end_of_line': 'EndLine', 'end_of_input': 'EndInput',
         'word_boundary': 'WordB', 'nothing': 'n_nothing', 'word': 'n_word', 'digit': 'n_digit',
         'whitespace': 'n_whitespace', 'linebreak': 'n_linebreak', 'lower': 'n_lower', 'upper': 'n_upper'}
MODES = {'': 'Greedy', 'lazy_': 'Lazy', 'possessive_': 'Possessive'}
def node(t):
    k, v, a = t
    v = v.split('::')[-1]
    if v in NAMES and a is None: return NAMES[v]
    ns = lambda l: '[' + '; '.join(node(x) for x in l) + ']'
    if v == 'literal': return '(Lit %s)' % coqchar(a[0][1])
    if v == 'range': return '(Range %s %s)' % (coqchar(a[0][1]), coqchar(a[1][1]))
    if v == 'set': return '(CSet %s)' % ns(a)
    if v == 'sequence': return '(Seq %s)' % ns(a)
    if v == 'alternation': return '(Alt %s)' % ns(a)
    if v == 'negated': return '(Neg %s)' % node(a[0])
    if v == 'atomic': return '(atomic %s)' % node(a[0])
    if v == 'unnamed_capture': return '(Cap %s None %s)' % (a[0][1], node(a[1]))
    if v == 'named_capture': return '(Cap %s (Some %s) %s)' % (a[0][1], coq(a[1][1]), node(a[2]))
    if v == 'backref': return '(Backref %s)' % a[0][1]
    if v == 'named_backref': return '(NBackref %s)' % coq(a[0][1])
    if v == 'positive_lookahead': return '(Look Ahead %s)' % node(a[0])
    if v == 'positive_lookbehind': return '(Look Behind %s)' % node(a[0])
    if v == 'negative_lookahead': return '(Neg (Look Ahead %s))' % node(a[0])
    if v == 'negative_lookbehind': return '(Neg (Look Behind %s))' % node(a[0])
    if v == 'id' or v == 'group':
        i, r = (a[0][1], a[1:]) if v == 'id' else ('0', a)
        body = 'n_nothing' if not r else node(r[0]) if len(r) == 1 else '(Seq %s)' % ns(r)
        return '(Cap %s None %s)' % (i, body)
    for p, md in MODES.items():
        if p and not v.startswith(p): continue
        w = v[len(p):]
        if w in ('star', 'plus', 'optional'): return '(%s %s %s)' % (w, md, node(a[0]))
        if w == 'fixed_repetition': return '(Rep %s %s (Fin %s) %s)' % (md, a[0][1], a[0][1], node(a[1]))
        if w == 'repetition': return '(Rep %s %s %s %s)' % (md, num(a[0]), quant(a[1]), node(a[2]))
    raise Exception('node %r' % (t,))

out = []
def emit(name, ty, items, check, comment):
    out.append('(** %s *)' % comment)
    out.append('Definition %s_cases : list (%s) :=\n  [%s].' % (name, ty, ';\n   '.join(items)))
    out.append('Example %s : forallb %s %s_cases = true.\nProof. vm_compute. reflexivity. Qed.\n' % (name, check, name))

# regex_match_tests.cpp
items = []
for line in read('regex_match_tests.cpp').splitlines():
    if 'static_assert' not in line: continue
    m = re.match(r'\s*static_assert\(regex<' + CSTR.format(1) + r'((?:, regex_flag::\w+)*)>::match\(' + CSTR.format(2) + r'\)( == false)?\);', line)
    assert m, line
    items.append('(%s, %s, %s, %s)' % (coq(lit(m, 1)), flags(m.group(3)), coq(lit(m, 2)), 'false' if m.group(6) else 'true'))
emit('match_tests', 'list ascii * list regex_flag * list ascii * bool', items, 'check_match',
     'test/regex_match_tests.cpp: %d assertions.' % len(items))
n_match = len(items)

# regex_search_tests.cpp
src = read('regex_search_tests.cpp')
alias = {}
for m in re.finditer(r'using (\w+) = regex<' + CSTR.format(1) + '>;', src):
    alias[m.group(1)] = lit(m, 1)
items = []
for line in src.splitlines():
    if 'static_assert' not in line: continue
    m = re.match(r'\s*static_assert\((?:(?P<al>\w+_regex)|regex<' + CSTR.format(1) + r'>)::search\(' + CSTR.format(2) + r'\)( == false)?\);', line)
    assert m, line
    p = alias[m.group('al')] if m.group('al') else lit(m, 1)
    items.append('(%s, [], %s, %s)' % (coq(p), coq(lit(m, 2)), 'false' if line.rstrip().endswith('== false);') else 'true'))
emit('search_tests', 'list ascii * list regex_flag * list ascii * bool', items, 'check_search',
     'test/regex_search_tests.cpp: %d assertions.' % len(items))

# iterator_api_tests.cpp
items = []
for line in read('iterator_api_tests.cpp').splitlines():
    if 'static_assert' not in line: continue
    m = re.match(r'\s*static_assert\(match_reverse<' + CSTR.format(1) + r'>\(' + CSTR.format(2) + r'\)( == false)?\);', line)
    assert m, line
    items.append('(%s, [], rev %s, %s)' % (coq(lit(m, 1)), coq(lit(m, 2)), 'false' if '== false' in line else 'true'))
emit('iterator_tests', 'list ascii * list regex_flag * list ascii * bool', items, 'check_match',
     'test/iterator_api_tests.cpp (matching through a reverse iterator): %d assertions.' % len(items))

# regex_iteration_tests.cpp
for fn, name, chk in (('match_count', 'find_all_tests', 'check_find_all'), ('token_count', 'tokenize_tests', 'check_tokenize')):
    items = []
    for line in read('regex_iteration_tests.cpp').splitlines():
        if 'static_assert' not in line or fn + '<' not in line: continue
        m = re.match(r'\s*static_assert\(\w+<' + CSTR.format(1) + r'((?:, regex_flag::\w+)*)>\(' + CSTR.format(2) + r'\) == (\d+)\);', line)
        assert m, line
        items.append('(%s, %s, %s, %s)' % (coq(lit(m, 1)), flags(m.group(3)), coq(lit(m, 2)), m.group(6)))
    emit(name, 'list ascii * list regex_flag * list ascii * nat', items, chk,
         'test/regex_iteration_tests.cpp, %s: %d assertions.' % (fn, len(items)))

# parser_accept_tests.cpp
items = []
for line in read('parser_accept_tests.cpp').splitlines():
    if 'static_assert' not in line: continue
    m = re.match(r'\s*static_assert\(accepted<' + CSTR.format(1) + r'>( == ?false)?\);', line)
    assert m, line
    items.append('(%s, %s)' % (coq(lit(m, 1)), 'false' if m.group(3) else 'true'))
emit('accept_tests', 'list ascii * bool', items, 'check_accept',
     'test/parser_accept_tests.cpp: %d assertions.' % len(items))

# parser_error_tests.cpp
items = []
for line in read('parser_error_tests.cpp').splitlines():
    if 'static_assert' not in line: continue
    m = re.match(r'\s*static_assert\(has_error<' + CSTR.format(1) + r'>::at_position<(\d+)>\);', line)
    assert m, line
    items.append('(%s, %s)' % (coq(lit(m, 1)), m.group(3)))
emit('error_tests', 'list ascii * nat', items, 'check_error',
     'test/parser_error_tests.cpp: %d assertions.' % len(items))

def asserts(src):
    """bodies of static_assert(...)"""
    res, i = [], 0
    while True:
        i = src.find('static_assert(', i)
        if i < 0: return res
        j = i + len('static_assert(')
        depth, k = 1, j
        while depth:
            if src.startswith('R"(', k):
                k = src.index(')"', k) + 2; continue
            if src[k] == '"':
                k += 1
                while src[k] != '"': k += 2 if src[k] == '\\' else 1
                k += 1; continue
            if src[k] == "'":
                k += 1
                while src[k] != "'": k += 2 if src[k] == '\\' else 1
                k += 1; continue
            depth += {'(': 1, ')': -1}.get(src[k], 0)
            k += 1
        res.append(src[j:k-1]); i = k

# parser_ast_tests.cpp
items = []
for b in asserts(read('parser_ast_tests.cpp')):
    t, _ = parse_ty(toks(b), 0)
    assert t[1] == 'is_ast_of'
    items.append('(%s, %s)' % (coq(t[2][0][1]), node(t[2][1])))
emit('ast_tests', 'list ascii * node', items, 'check_ast', 'test/parser_ast_tests.cpp: %d assertions.' % len(items))

# ast_indexing_tests.cpp
items = []
for b in asserts(read('ast_indexing_tests.cpp')):
    t, _ = parse_ty(toks(b), 0)
    if t[1] == 'is_same_after_indexing': items.append('(%s, %s)' % (node(t[2][0]), node(t[2][0])))
    else: items.append('(%s, %s)' % (node(t[2][0]), node(t[2][1])))
emit('indexing_tests', 'node * node', items, 'check_indexing', 'test/ast_indexing_tests.cpp: %d assertions.' % len(items))

# ast_inversion_tests.cpp
items = []
for b in asserts(read('ast_inversion_tests.cpp')):
    t, _ = parse_ty(toks(b), 0)
    items.append('(%s, %s)' % (node(t[2][0]), node(t[2][1])))
emit('inversion_tests', 'node * node', items, 'check_inversion', 'test/ast_inversion_tests.cpp: %d assertions.' % len(items))

# ast_traits_tests.cpp
tr = {'is_trivially_matchable': [], 'is_zero_length_matcher': [], 'is_assertion': []}
names = []
for b in asserts(read('ast_traits_tests.cpp')):
    neg = b.rstrip().endswith('== false')
    if neg: b = b.rstrip()[:-len('== false')]
    t, _ = parse_ty(toks(b), 0)
    if t[1] in tr: tr[t[1]].append('(%s, %s)' % (node(t[2][0]), 'false' if neg else 'true'))
    else:
        ns = ['None' if x[1] == 'unnamed' else 'Some %s' % coq(x[2][0][1]) for x in t[2][1][2]]
        names.append('(%s, [%s])' % (coq(t[2][0][1]), '; '.join(ns)))
for k, f in (('is_trivially_matchable', 'trivial'), ('is_zero_length_matcher', 'zlm'), ('is_assertion', 'is_assertion')):
    emit(k + '_tests', 'node * bool', tr[k], '(check_trait %s)' % f, 'test/ast_traits_tests.cpp, %s: %d assertions.' % (k, len(tr[k])))
emit('name_spec_tests', 'list ascii * list group_name', names, 'check_names', 'test/ast_traits_tests.cpp, capture_name_spec: %d assertions.' % len(names))

HEAD = '''(** The assertions of /repo/test, evaluated in the model.  Generated by
    tools/gen_conformance.py; every case is a [static_assert] of the project. *)
From Verif Require Import Api Xpr Parser Equality.

(** [regex<Pattern, Flags...>] for an accepted pattern. *)
Definition with_regex (p : list ascii) (fl : list regex_flag) (f : regex -> bool) : bool :=
  match parse p with P_ok n => f (mk_regex n fl) | _ => false end.

(** The three std iterator categories the library distinguishes.  A forward
    iterator is not tried where the library rejects it or reads backwards. *)
Definition verdict_is (b : bool) (r : call match_res) : bool :=
  match r with Returned x => Bool.eqb (matched x) b | _ => false end.
Definition check_match '(p, fl, s, b) : bool :=
  with_regex p fl (fun r => verdict_is b (regex_match r RandomAccessIt s)
                         && verdict_is b (regex_match r BidirectionalIt s)).
Definition check_search '(p, fl, s, b) : bool :=
  with_regex p fl (fun r => verdict_is b (regex_search r RandomAccessIt s)).
Definition count_is (k : nat) (r : call (list match_res)) : bool :=
  match r with Returned l => Nat.eqb (length l) k | _ => false end.
Definition check_find_all '(p, fl, s, k) : bool :=
  with_regex p fl (fun r => count_is k (find_all r RandomAccessIt s)).
Definition check_tokenize '(p, fl, s, k) : bool :=
  with_regex p fl (fun r => count_is k (tokenize r RandomAccessIt s)).
Definition check_accept '(p, b) : bool :=
  match parse p with
  | P_ok _ => b
  | P_error _ => negb b
  | _ => false
  end.
Definition check_error '(p, i) : bool :=
  match parse p with P_error j => Nat.eqb i j | _ => false end.
Definition check_ast '(p, n) : bool :=
  match parse p with P_ok n' => node_eqb n n' | _ => false end.
Definition check_indexing '(a, b) : bool := node_eqb (index_captures a) b.
Definition check_inversion '(a, b) : bool := node_eqb (invert a) b.
Definition check_trait (f : node -> bool) '(a, b) : bool := Bool.eqb (f a) b.
Definition check_names '(p, l) : bool :=
  match parse p with
  | P_ok n => names_eqb (capture_name_spec n) l
  | _ => false
  end.

'''
open('/verif/rocq/theories/Conformance.v', 'w').write(HEAD + '\n'.join(out))
