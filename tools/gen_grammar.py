#!/usr/bin/env python3
"""Translate the generated pest parser /repo/projects/sm-parser/src/sm_parser.rs
into rocq/theories/Grammar.v, one equation per parsing function."""
import re
SRC = '/repo/projects/sm-parser/src/sm_parser.rs'
lines = open(SRC).read().split('\n')
rules = []           # (name, line, body)
skip_body = None
i = 0
while i < len(lines):
    m = re.match(r'\s*pub fn (\w+)\(state', lines[i])
    if m:
        rules.append([m.group(1), i + 1, lines[i + 1].strip()])
    i += 1
skip = [r for r in rules if r[0] == 'skip'][0]
rules = [r for r in rules if r[0] != 'skip']
# one-line bodies of the unicode functions: look for them too
text = '\n'.join(lines)
for m in re.finditer(r'fn (\w+)\(state[^\n]*\n?\s*(state\.match_char_by\([^\n]*\))', text):
    if m.group(1) not in [r[0] for r in rules]:
        rules.append([m.group(1), text[:m.start()].count('\n') + 1, m.group(2)])

class P:
    def __init__(s, t): s.t, s.i = t, 0
    def peek(s, w): return s.t.startswith(w, s.i)
    def eat(s, w):
        assert s.peek(w), (w, s.t[s.i:s.i+60])
        s.i += len(w)
    def ident(s):
        m = re.compile(r'\w+').match(s.t, s.i)
        s.i = m.end()
        return m.group()
    def string(s):
        m = re.compile(r'"((?:[^"\\]|\\.)*)"').match(s.t, s.i)
        s.i = m.end()
        return m.group(1).replace('\\\\', '\0').replace('\\"', '"').replace('\\n', '\n').replace('\\r', '\r').replace('\0', '\\')
    def char(s):
        m = re.compile(r"'(.)'").match(s.t, s.i)
        s.i = m.end()
        return m.group(1)
    def expr(s):
        e = s.atom()
        while s.peek('.and_then(') or s.peek('.or_else('):
            if s.peek('.and_then('):
                s.eat('.and_then('); c = 'EThen'
            else:
                s.eat('.or_else('); c = 'EElse'
            b = s.expr(); s.eat(')')
            e = (c, e, b)
        return e
    def atom(s):
        n = s.ident()
        if not s.peek('('):
            if n == 'skip': return ('ESkip',)
            return ('ECall', n)
        s.eat('(')
        if n in ('sequence', 'optional', 'repeat', 'restore_on_err', 'stack_push'):
            a = s.expr(); s.eat(')')
            return ({'sequence': 'ESeq', 'optional': 'EOpt', 'repeat': 'ERep',
                     'restore_on_err': 'ERestore', 'stack_push': 'EPush'}[n], a)
        if n == 'rule':
            s.eat('Rule::'); r = s.ident(); s.eat(', ')
            a = s.expr(); s.eat(')')
            return ('ERule', r, a)
        if n == 'atomic':
            k = s.ident(); s.eat(', ')
            a = s.expr(); s.eat(')')
            return ('EAtomic', k, a)
        if n == 'lookahead':
            s.eat('false, ')
            a = s.expr(); s.eat(')')
            return ('ENot', a)
        if n == 'match_string':
            a = s.string(); s.eat(')')
            return ('EStr', a)
        if n == 'match_insensitive':
            a = s.string(); s.eat(')')
            return ('EInsens', a)
        if n == 'match_range':
            a = s.char(); s.eat('..'); b = s.char(); s.eat(')')
            return ('ERange', a, b)
        if n == 'skip':
            s.eat('1)')
            return ('EAny',)
        if n == 'match_char_by':
            s.eat('::pest::unicode::'); c = s.ident(); s.eat(')')
            return ('EClass', {'WHITE_SPACE': 'WhiteSpace', 'XID_START': 'XidStart', 'XID_CONTINUE': 'XidContinue'}[c])
        s.eat(')')
        return ({'end_of_input': 'EEoi', 'start_of_input': 'ESoi', 'stack_peek': 'EPeek', 'stack_pop': 'EPop'}[n],)

def clean(b):
    for w in ('|state| ', 'super::hidden::', 'super::visible::', 'self::', '::pest::Atomicity::', '(state)'):
        b = b.replace(w, '')
    return b.replace('state.', '')

def lit(s):
    if all(32 < ord(c) < 127 and c != '"' for c in s): return 'lit "%s"' % s
    return '[' + '; '.join('%d%%N' % ord(c) for c in s) + ']'

def show(e):
    t = e[0]
    if t in ('EThen', 'EElse'): return '(%s %s\n   %s)' % (t, show(e[1]), show(e[2])) if False else '(%s %s %s)' % (t, show(e[1]), show(e[2]))
    if t in ('ESeq', 'EOpt', 'ERep', 'ERestore', 'EPush', 'ENot'): return '(%s %s)' % (t, show(e[1]))
    if t == 'ERule': return '(ERule R_%s %s)' % (e[1], show(e[2]))
    if t == 'EAtomic': return '(EAtomic %s %s)' % (e[1], show(e[2]))
    if t in ('EStr', 'EInsens'): return '(%s (%s))' % (t, lit(e[1]))
    if t == 'ERange': return '(ERange %d%%N %d%%N)' % (ord(e[1]), ord(e[2]))
    if t == 'EClass': return '(EClass %s)' % e[1]
    if t == 'ECall': return '(ECall R_%s)' % e[1]
    return t

def parse(b):
    p = P(clean(b))
    e = p.expr()
    assert p.i == len(p.t), p.t[p.i:]
    return e

def wrap(s, w=96):
    out, line = [], ''
    for tok in s.split(' '):
        if line and len(line) + 1 + len(tok) > w:
            out.append(line); line = tok
        else:
            line = line + ' ' + tok if line else tok
    out.append(line)
    return '\n      '.join(out)

m = re.match(r'if state.atomicity\(\) == ::pest::Atomicity::NonAtomic \{ (.*) \} else \{ Ok\(state\) \}$', skip[2])
names = [r[0] for r in rules]
for r in rules:
    for n in re.findall(r'R_(\w+)', show(parse(r[2]))): assert n in names, n
o = open('/verif/rocq/theories/Grammar.v', 'w')
o.write('''(** The generated parser projects/sm-parser/src/sm_parser.rs, function by function.
    This file is produced by tools/gen_grammar.py, which translates the Rust text;
    the line after each name is the line of the Rust function. *)
From Verif Require Import Base Peg.

(** The functions of [rules::visible]; most are also variants of [enum Rule]. *)
Inductive rule :=
''')
for n, _, _ in rules: o.write('| R_%s\n' % n)
o.write('''.

(** projects/sm-parser/src/sm_parser.rs:169-985 [rules::visible] *)
Definition grammar (r : rule) : pexp rule :=
  match r with
''')
for n, l, b in rules:
    o.write('  (* %d *)\n  | R_%s =>\n      %s\n' % (l, n, wrap(show(parse(b)))))
o.write('''  end.

(** sm_parser.rs:%d [rules::hidden::skip], the NonAtomic branch *)
Definition skip_body : pexp rule :=
      %s.

(** all functions, for checks over the whole grammar *)
Definition all_rules : list rule :=
  [%s].
Lemma all_rules_complete : forall r, In r all_rules.
Proof. intro r; destruct r; repeat (first [left; reflexivity | right]). Qed.
''' % (skip[1], wrap(show(parse(m.group(1)))), wrap('; '.join('R_' + n for n in names))))
print(len(rules), 'rules')
