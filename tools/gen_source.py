#!/usr/bin/env python3
"""Translate /repo/projects/sm-parser/simple-math.pest into rocq/theories/Source.v."""
import re
SRC = '/repo/projects/sm-parser/simple-math.pest'

class P:
    def __init__(s, t): s.t, s.i = t, 0
    def ws(s):
        while True:
            m = re.compile(r'\s+|//[^\n]*|/\*.*?\*/', re.S).match(s.t, s.i)
            if not m: return
            s.i = m.end()
    def peek(s, w): s.ws(); return s.t.startswith(w, s.i)
    def eat(s, w):
        assert s.peek(w), (w, s.t[s.i:s.i+40]); s.i += len(w)
    def ident(s):
        s.ws(); m = re.compile(r'\w+').match(s.t, s.i); s.i = m.end(); return m.group()
    def line(s): s.ws(); return s.t[:s.i].count('\n') + 1
    def rule(s):
        l = s.line(); n = s.ident(); s.eat('='); s.ws()
        m = s.t[s.i]; k = 'Plain'
        if m in '_@$!': s.i += 1; k = {'_': 'Silent', '@': 'AtomicRule', '$': 'CompoundRule', '!': 'NonAtomicRule'}[m]
        s.eat('{'); e = s.expr(); s.eat('}'); return (n, l, k, e)
    def expr(s):
        e = s.seq()
        while s.peek('|'): s.eat('|'); e = ('Or', e, s.seq())
        return e
    def seq(s):
        e = s.pre()
        while s.peek('~'): s.eat('~'); e = ('Then', e, s.pre())
        return e
    def pre(s):
        if s.peek('!'): s.eat('!'); return ('Not', s.pre())
        return s.post()
    def post(s):
        e = s.atom()
        while True:
            if s.peek('?'): s.eat('?'); e = ('Maybe', e)
            elif s.peek('*'): s.eat('*'); e = ('Many', e)
            elif s.peek('+'): s.eat('+'); e = ('Several', e)
            elif s.peek('{3}'): s.eat('{3}'); e = ('Times', e)
            else: return e
    def atom(s):
        if s.peek('('): s.eat('('); e = s.expr(); s.eat(')'); return e
        ins = False
        if s.peek('^'): s.eat('^'); ins = True
        if s.peek('"'):
            m = re.compile(r'"((?:[^"\\]|\\.)*)"').match(s.t, s.i); s.i = m.end()
            w = m.group(1).replace('\\\\', '\0').replace('\\"', '"').replace('\\n', '\n').replace('\\r', '\r').replace('\0', '\\')
            return ('AnyCase' if ins else 'Text', w)
        n = s.ident()
        if n == 'PUSH': s.eat('('); e = s.expr(); s.eat(')'); return ('Push', e)
        return ('Name', n)

def lit(s):
    if all(32 < ord(c) < 127 and c != '"' for c in s): return 'lit "%s"' % s
    return '[' + '; '.join('%d' % ord(c) for c in s) + ']%N'
def show(e, lvl=0):
    t = e[0]
    if t in ('Text', 'AnyCase'): return '%s (%s)' % (t, lit(e[1]))
    if t == 'Name': return 'Name R_%s' % e[1]
    if t in ('Then', 'Or'): return '%s (%s) (%s)' % (t, show(e[1]), show(e[2]))
    if t == 'Times': return 'Times 3 (%s)' % show(e[1])
    return '%s (%s)' % (t, show(e[1]))
def wrap(s, w=110):
    out, line = [], ''
    for tok in s.split(' '):
        if line and len(line) + 1 + len(tok) > w: out.append(line); line = tok
        else: line = line + ' ' + tok if line else tok
    out.append(line)
    return '\n      '.join(out)
p = P(open(SRC).read()); rules = []
p.ws()
while p.i < len(p.t): rules.append(p.rule()); p.ws()
o = open('/verif/rocq/theories/Source.v', 'w')
o.write('''(** The grammar projects/sm-parser/simple-math.pest, rule by rule.  This file is
    produced by tools/gen_source.py; the number before a rule is its line. *)
From Verif Require Import Base Grammar SpecPest.

Definition source (r : rule) : definition :=
  match r with
''')
for n, l, k, e in rules: o.write('  (* %d *)\n  | R_%s => Rule %s\n      (%s)\n' % (l, n, k, wrap(show(e))))
o.write('''  (* names that pest defines *)
  | R_ANY => Built AnyChar
  | R_EOI => Built EndOfInput
  | R_SOI => Built StartOfInput
  | R_PEEK => Built Peek
  | R_POP => Built Pop
  | R_ASCII_DIGIT => Built Digit
  | R_ASCII_NONZERO_DIGIT => Built NonzeroDigit
  | R_ASCII_BIN_DIGIT => Built BinDigit
  | R_ASCII_OCT_DIGIT => Built OctDigit
  | R_ASCII_HEX_DIGIT => Built HexDigit
  | R_NEWLINE => Rule Silent (Or (Or (Text [10]%N) (Text [13; 10]%N)) (Text [13]%N))
  | R_WHITE_SPACE => Built White
  | R_XID_CONTINUE => Built IdContinue
  | R_XID_START => Built IdStart
  end.
''')
print(len(rules), 'rules')
