#!/usr/bin/env python3
"""Write ConformGrammar.v from the unit tests in /repo/src/script/v1/matchers.

Every test of the form "tokenize a source with a grammar macro, then assert_eq!
facts about the token tree" becomes one Example with the same facts.
"""
import re, glob, os, sys

def unrust(s):
    """value of a Rust string literal"""
    s = s.strip()
    if s.startswith('r"'):
        return s[2:-1]
    if s.startswith('r#"'):
        return s[3:-2]
    s = s[1:-1]
    out, i = '', 0
    while i < len(s):
        if s[i] == '\\':
            n = s[i + 1]
            if n == '\n':
                i += 2
                while s[i] in ' \t\n':
                    i += 1
                continue
            out += {'n': '\n', 't': '\t', 'r': '\r', '\\': '\\', '"': '"', "'": "'"}[n]
            i += 2
        else:
            out += s[i]
            i += 1
    return out

def coq(s):
    assert all(ord(c) < 128 for c in s)
    if '\r' in s:
        return '(' + ' ++ ["013"%char] ++ '.join('lit ' + coq(p) for p in s.split('\r')) + ')'
    return '"' + s.replace('"', '""') + '"'

STR = r'(r#".*?"#|r"[^"]*"|"(?:[^"\\]|\\.)*")'
MACRO = {'ScriptIdentifier': 'ScriptIdentifier', 'ScriptString': 'ScriptString', 'ScriptComment': 'ScriptComment',
         'ScriptWS0': 'ScriptWS0', 'ScriptWSN0': 'ScriptWSN0', 'ScriptCustomMatcher': 'ScriptCustomMatcher',
         'ScriptEqualsMatcher': 'ScriptEqualsMatcher', 'ScriptMatcherName': 'ScriptMatcherName',
         'ScriptRepeatZeroOrMore': 'ScriptRepeatZeroOrMore', 'ScriptRepeatOneOrMore': 'ScriptRepeatOneOrMore'}
NEEDS_E = {'ScriptWS0', 'ScriptWSN0', 'ScriptAttribute', 'ScriptAttributes', 'ScriptSequenceMatcher', 'ScriptMatcher',
           'ScriptRepeatRange', 'ScriptRepeatSpecifier', 'ScriptPatternDefinition', 'ScriptPattern', 'ScriptSwitchMatcher',
           'ScriptProgramMatcher', 'ScriptAssignmentExpression', 'ScriptImportStatement', 'ScriptAdextopaScope',
           'ScriptPatternScope', 'Script'}

def main():
    out, skipped = [], []
    for f in sorted(glob.glob('/repo/src/script/v1/matchers/*.rs')):
        text = open(f).read()
        if '#[cfg(test)]' not in text:
            continue
        base = text.index('#[cfg(test)]')
        body = re.sub(r'(?m)^ *//.*$', '', text[base:])
        fns = [(m.group(1), m.start(), m.end()) for m in re.finditer(r'#\[test\]\s*fn (\w+)\(\) \{', body)]
        for i, (name, st, e) in enumerate(fns):
            t = body[e:fns[i + 1][1] if i + 1 < len(fns) else len(body)]
            line = text[:base].count('\n') + body[:st].count('\n') + 1
            ident = os.path.basename(f)[:-3] + '_' + name
            where = '%s:%d' % (os.path.relpath(f, '/repo'), line)
            sv = re.search(r'let source\s*=\s*' + STR, t, re.S)
            pm = re.search(r'Parser::new\(\s*(?:' + STR + r'|(source))\s*,?\s*\)', t, re.S)
            mm = re.findall(r'(Script\w*)!\(((?:"[^"]*"|\?)?)\)', t)
            if not pm or not mm:
                skipped.append((where, ident, 'no parser or macro'))
                continue
            src = unrust(sv.group(1)) if pm.group(2) else unrust(pm.group(1))
            mac, arg = mm[-1]
            m = mac if mac != 'Script' else 'Script_'
            if arg and arg != '?':
                m = m + 'N'
            term = m + (' at_env' if mac in NEEDS_E else '') + (' ' + coq(unrust(arg)) if arg else '')
            if mac.startswith('ScriptWS'):
                term = 'MatchesN "Whitespace" re_%s_' % mac[6:].lower()
                if arg == '?':
                    term = 'MDiscard (%s)' % term
            if 'let matcher = Loop!(Switch!(' in t:
                assert ident == 'comment_it_works2'
                term = 'Loop_ [Switch_ [ScriptComment; MatchesN "Whitespace" spaces; MatchesN "Number" digits]]'
            elif 'let matcher = Loop!(ScriptMatcher!());' in t:
                term = 'Loop_ [ScriptMatcher at_env]'
            checks, paths = [], {'token': []}
            for s in re.finditer(r'let (\w+) = (\w+)\.get_children\(\)\[(\d+)\]\.borrow\(\);|assert_eq!\((.*?)\)(?:;\n| *\n *\})', t, re.S):
                if s.group(1):
                    paths[s.group(1)] = paths[s.group(2)] + [int(s.group(3))]
                    continue
                a = re.sub(r'\s+(?=(?:[^"]*"[^"]*")*[^"]*$)', ' ', s.group(4)).strip().rstrip(',').strip()
                def p(v):
                    return '[' + '; '.join('%d%%nat' % x for x in paths[v]) + ']'
                g = re.fullmatch(r'(\w+)\.get_name\(\), ' + STR, a, re.S)
                if g: checks.append('CName %s %s' % (p(g.group(1)), coq(unrust(g.group(2))))); continue
                g = re.fullmatch(r'\*(\w+)\.get_(captured|matched)_range\(\), SourceRange::new\((\d+), (\d+)\)', a)
                if g: checks.append('%s %s %s %s' % ('CCap' if g.group(2) == 'captured' else 'CMat', p(g.group(1)), g.group(3), g.group(4))); continue
                g = re.fullmatch(r'(\w+)\.get_(value|matched_value|captured_value)\(\), (?:' + STR + '|(source))', a, re.S)
                if g:
                    v = src if g.group(4) else unrust(g.group(3))
                    checks.append('%s %s %s' % ({'value': 'CVal', 'matched_value': 'CMVal', 'captured_value': 'CCVal'}[g.group(2)], p(g.group(1)), coq(v))); continue
                g = re.fullmatch(r'(\w+)\.get_children\(\)\.len\(\), (\d+)', a)
                if g: checks.append('CLen %s %s%%nat' % (p(g.group(1)), g.group(2))); continue
                g = re.fullmatch(r'(\w+)\.get_attribute\("(\w+)"\), Some\(&' + STR + r'\.to_string\(\)\)', a, re.S) or \
                    re.fullmatch(r'(\w+)\.get_attribute\("(\w+)"\)\.unwrap\(\)(?:\.as_str\(\))?, ' + STR, a, re.S)
                if g: checks.append('CAttr %s %s %s' % (p(g.group(1)), coq(g.group(2)), coq(unrust(g.group(3))))); continue
                g = re.fullmatch(r'(?:result, )?Err\(MatcherFailure::Fail\)(?:, (?:result|ParserContext::tokenize\(parser_context, matcher\)))?', a)
                if not g:
                    g = re.fullmatch(r'ParserContext::tokenize\(parser_context, matcher\), Err\(MatcherFailure::Fail\)', a)
                if g: checks.append('FAIL'); continue
                g = re.search(r'ParseError::new_with_range\( ' + STR + r', SourceRange::new\((\d+), (\d+)\)', a, re.S)
                if g: checks.append('FATAL %s %s %s' % (coq(unrust(g.group(1))), g.group(2), g.group(3))); continue
                g = re.search(r'Ok\(MatcherSuccess::Skip\((\d+)\)\)', a)
                if g: checks.append('SKIP %s' % g.group(1)); continue
                g = re.fullmatch(r'(\w+)\.flags_enabled\(crate::token::IS_ERROR\), true', a)
                if g: checks.append('CErr_ %s' % p(g.group(1))); continue
                g = re.fullmatch(r'get_repeat_specifier_range\(token\.clone\(\)\), Ok\((\d+)\.\.([\w:]+)\)', a)
                if g: checks.append('CRange %s %s' % (g.group(1), g.group(2).replace('usize::MAX', 'usize_max'))); continue
                g = re.fullmatch(r'get_repeat_specifier_range\(token\.clone\(\)\), Err\( ' + STR + r' *\.to_string\(\) ?\)?', a, re.S)
                if g: checks.append('CRangeErr %s' % coq(unrust(g.group(1)))); continue
                g = re.fullmatch(r'(\w+)\.get_matched_value\(\), &source\[1\.\.\]', a)
                if g: checks.append('CMVal %s %s' % (p(g.group(1)), coq(src[1:]))); continue
                skipped.append((where, ident, 'assertion: ' + a[:140]))
            if re.search(r'if let Err\(MatcherFailure::Fail\) = (ParserContext::tokenize|matcher\.borrow\(\)\.exec)', t):
                checks.append('FAIL')
            if not checks:
                skipped.append((where, ident, 'nothing checked'))
                continue
            if checks == ['FAIL']:
                st_ = 'parse_with (%s) %s = Fails' % (term, coq(src))
            elif checks[0].startswith('FATAL'):
                _, rest = checks[0].split(' ', 1)
                msg, a, b = rest.rsplit(' ', 2)
                st_ = 'parse_with (%s) %s\n  = Fatal %s (Some (%s, %s))' % (term, coq(src), msg, a, b)
            elif checks[0].startswith('SKIP'):
                st_ = 'executed %s (%s) = Some (Ok (SSkip %s))' % (coq(src), term, checks[0].split()[1])
            else:
                assert not any(c in ('FAIL',) or c.startswith(('SKIP', 'FATAL')) for c in checks), ident
                st_ = 'parse_check (%s) %s\n  [%s] = true' % (term, coq(src), ';\n   '.join(checks))
            out.append('(* %s *)\nExample %s :\n  %s.\nProof. vm_compute. reflexivity. Qed.\n' % (where, ident, st_))
    head = '''(* The unit tests of /repo/src/script/v1/matchers replayed on the model.
   Written by tools/conform.py from the assertions of the tests. *)
From Verif Require Import Samples ConformMatchers ScriptBuild.
Open Scope string_scope.
Open Scope list_scope.
Open Scope N_scope.

(* the facts that the tests state; a path leads from the result down the children *)
Inductive check :=
| CName (p : list nat) (s : str)
| CCap (p : list nat) (a b : N)
| CMat (p : list nat) (a b : N)
| CVal (p : list nat) (s : str)
| CCVal (p : list nat) (s : str)
| CMVal (p : list nat) (s : str)
| CLen (p : list nat) (n : nat)
| CAttr (p : list nat) (n v : str)
| CErr_ (p : list nat)
| CRange (a b : N)
| CRangeErr (s : str).

Fixpoint follow (st : state) (a : addr) (p : list nat) : option token :=
  match p with
  | [] => Some (tok st a)
  | n :: p' => match nth_error (tk_kids (tok st a)) n with Some k => follow st k p' | None => None end
  end.
Definition on (st : state) (a : addr) (p : list nat) (f : token -> bool) : bool :=
  match follow st a p with Some t => f t | None => false end.
Definition holds (st : state) (a : addr) (c : check) : bool :=
  match c with
  | CName p s => on st a p (fun t => str_eqb (tk_name t) s)
  | CCap p x y => on st a p (fun t => (rs (tk_cr t) =? x) && (re (tk_cr t) =? y))
  | CMat p x y => on st a p (fun t => (rs (tk_mr t) =? x) && (re (tk_mr t) =? y))
  | CVal p s => on st a p (fun t => str_eqb (get_value t) s)
  | CCVal p s => on st a p (fun t => str_eqb (get_cvalue t) s)
  | CMVal p s => on st a p (fun t => str_eqb (get_mvalue t) s)
  | CLen p n => on st a p (fun t => Nat.eqb (List.length (tk_kids t)) n)
  | CAttr p n v => on st a p (fun t => match get_attr n t with Some w => str_eqb v w | None => false end)
  | CErr_ p => on st a p is_error
  | CRange x y => match repeat_range st a with COk (u, v) => (u =? x) && (v =? y) | _ => false end
  | CRangeErr s => match repeat_range st a with CErr e => str_eqb e s | _ => false end
  end.

(* src/script/v1/matchers/whitespace.rs:1-36, with `*` and with `+` *)
Definition blank_ : N -> bool := fun x => cspace at_env x && negb (x =? 10) && negb (x =? 13).
Definition re_ws0_ : finder := re_ws0 at_env.
Definition re_wsn0_ : finder := re_wsn0 at_env.
Definition re_ws1_ : finder := re_find [plus blank_].
Definition re_wsn1_ : finder := re_find [plus (cspace at_env)].

(* the tests register the two recursive matchers first *)
Definition parse_in (m : matcher) (src : str) : parser * res tres :=
  let P := parser_new src in
  let c := init_ctx P "Test" in
  (P, tokenize 100 at_env P c m (register_all init_state c [ScriptSwitchMatcher at_env; ScriptProgramMatcher at_env])).
Definition parse_with (m : matcher) (src : str) : seen :=
  match snd (parse_in m src) with
  | Ret (TOk a) st => Tok (view_of 20 st a)
  | Ret (TErr FFail) _ => Fails
  | Ret (TErr (FError e)) _ => fatal e
  | _ => Other
  end.
Definition parse_check (m : matcher) (src : str) (l : list check) : bool :=
  match snd (parse_in m src) with
  | Ret (TOk a) st => forallb (holds st a) l
  | _ => false
  end.

'''
    open('/verif/rocq/theories/ConformGrammar.v', 'w').write(head + '\n'.join(out))
    print(len(out), 'examples')
    for s in skipped:
        print('skipped', s)

main()
