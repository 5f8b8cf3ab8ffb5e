#!/usr/bin/env python3
"""Translates the CHECK(run...(...)) lines of /repo/test/int_test.hpp into
rocq/theories/ConformInt.v. The loops and the remaining checks are written out by
hand in conform_int_head.txt. Without arguments only the checks that are cheap for
coqchk are kept (short operands, the first few of each test); with --full FILE
every check and every loop is written to FILE, which can be compiled with
    coqc -Q rocq/theories Verif FILE
(about three minutes)."""
import re, sys
full = sys.argv[2] if len(sys.argv) > 2 and sys.argv[1] == '--full' else None
src = open('/repo/test/int_test.hpp').read()
src = re.sub(r'//[^\n]*', '', src)

def balanced(s, i):
    depth = 0; j = i; instr = False
    while True:
        c = s[j]
        if instr:
            if c == '"': instr = False
        elif c == '"': instr = True
        elif c == '(': depth += 1
        elif c == ')':
            depth -= 1
            if depth == 0: return j
        j += 1

def split(args):
    out = []; depth = 0; cur = ''; instr = False
    for c in args:
        if c == '"': instr = not instr
        if not instr:
            if c == '(': depth += 1
            if c == ')': depth -= 1
            if c == ',' and depth == 0:
                out.append(cur.strip()); cur = ''; continue
        cur += c
    out.append(cur.strip())
    return out

def arg(a):
    m = re.fullmatch(r'Int\s*\(\s*(-?\s*\d+)\s*\)', a)
    if m: return '(n (%s))' % m.group(1).replace(' ', '')
    m = re.fullmatch(r'Int\s*\(\s*((?:"[^"]*"\s*)+)\)', a)
    if m: return '(s "%s")' % ''.join(re.findall(r'"([^"]*)"', m.group(1)))
    if re.fullmatch(r'-?\d+', a): return '(%s)' % a
    if a in ('true', 'false'): return a
    raise ValueError(a)

LIMIT = {'division': 12, 'modulus': 13, 'exponentiation': 10, 'quotientAndRemainder': 1}
checks = {}
order = []
tests = [(m.start(), m.group(1)) for m in re.finditer(r'TEST\((\w+)\)', src)]
skipped = 0
for m in re.finditer(r'CHECK\((run\w+)\(', src):
    j = balanced(src, m.end() - 1)
    args = split(src[m.end():j])
    t = [n for p, n in tests if p < m.start()][-1]
    try: line = '%s %s' % (m.group(1), ' '.join(arg(a) for a in args))
    except ValueError: skipped += 1; continue
    if not full:
        if len(checks.get(t, [])) >= LIMIT.get(t, 12) or len(line) > 170: continue
    if t not in checks: checks[t] = []; order.append(t)
    checks[t].append(line)

head = open('/verif/tools/conform_int_head.txt').read()
if full: head = re.sub(r'\(\*light\*\)(.*?)\(\*full(.*?)\*\)', flags=re.S, repl=r'\2', string=head)
else: head = re.sub(r'\(\*light\*\)(.*?)\(\*full(.*?)\*\)', flags=re.S, repl=r'\1', string=head)
out = [head]
for t in order:
    out.append('\n(** TEST(%s) *)\nExample test_%s : all_pass [\n  %s] = true.\nProof. vm_compute. reflexivity. Qed.\n' % (t, t, ';\n  '.join(checks[t])))
open(full or '/verif/rocq/theories/ConformInt.v', 'w').write(''.join(out))
print(sum(map(len, checks.values())), 'checks;', skipped, 'in loops (by hand)')
