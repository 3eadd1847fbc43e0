#!/usr/bin/env python3
"""Write rocq/theories/CountryProps.v: for each country the list of its holidays as
rules of CountrySpec.v, and the theorem that the code agrees with it."""
import os
root = os.path.dirname(os.path.dirname(os.path.abspath(__file__)))
F = lambda m, *ds: ' '.join('Fixed %d %d;' % (m, d) for d in ds)
E = lambda *ks: ' '.join('Easter (%d);' % k for k in ks)
def sub(m, d):    # Saturday and Sunday holidays move to Monday
    return 'Fixed %d %d; Moved [Sat] 2 (Fixed %d %d); Moved [Sun] 1 (Fixed %d %d);' % (m, d, m, d, m, d)
def sun(m, d):
    return 'Fixed %d %d; Moved [Sun] 1 (Fixed %d %d);' % (m, d, m, d)
def us(m, d):     # Saturday to Friday, Sunday to Monday
    return 'Fixed %d %d; Moved [Sat] (-1) (Fixed %d %d); Moved [Sun] 1 (Fixed %d %d);' % (m, d, m, d, m, d)
def xmas():
    return ' '.join('Fixed 12 %d; Moved [Sat; Sun] 2 (Fixed 12 %d);' % (d, d) for d in (25, 26))
def between(a, b, s):
    return ' '.join('Between %d %d (%s);' % (a, b, r.strip()) for r in s.split(';;'))
def yr(a, b, s):
    # split at top level on ';'
    out, depth, cur = [], 0, ''
    for ch in s:
        if ch in '([': depth += 1
        if ch in ')]': depth -= 1
        if ch == ';' and depth == 0:
            out.append(cur.strip()); cur = ''
        else: cur += ch
    return ' '.join('Between %d %d (%s);' % (a, b, r) for r in out if r)
def mv(m, d, *ps):
    return ' '.join('Moved [%s] (%d) (Fixed %d %d);' % (w, k, m, d) for w, k in ps)
once = lambda *ts: ' '.join('Once %d %d %d;' % t for t in ts)
MAX = 9999
C = {}
C['argentina'] = E(-3, -2) + F(5, 1, 25) + 'NthDay 3 Mon 6;' + F(7, 9) + 'NthDay 3 Mon 8;' + mv(10, 12, ('Mon', 0), ('Tue', -1), ('Wed', -2), ('Thu', 4), ('Fri', 3)) + F(12, 8, 24, 25, 31) + mv(12, 31, ('Sat', -1))
C['australia'] = sub(1, 1) + sub(1, 26) + E(-2, 1) + F(4, 25) + 'NthDay 2 Mon 6; NthDay 1 Mon 8; NthDay 1 Mon 10;' + xmas() + once((2022, 9, 22))
C['austria'] = F(1, 1, 6) + E(1, 39, 50, 60) + F(5, 1) + F(8, 15) + yr(1967, MAX, F(10, 26)) + yr(1919, 1934, F(11, 12)) + F(11, 1) + F(12, 8, 25, 26)
C['botswana'] = sun(1, 1) + mv(1, 1, ('Sun', 2)) + E(-2, 1, 39) + sun(5, 1) + sun(7, 1) + 'NthDay 3 Mon 7;' + sun(9, 30) + sun(10, 1) + mv(10, 1, ('Sun', 2)) + F(12, 25) + sun(12, 26)
C['brazil'] = F(1, 1) + F(4, 21) + F(5, 1) + F(9, 7) + F(10, 12) + F(11, 2, 15) + yr(2024, MAX, F(11, 20)) + F(12, 25) + E(-48, -47, -2, 60)
C['canada'] = sub(1, 1) + yr(2008, MAX, 'NthDay 3 Mon 2;') + E(-2) + 'OnOrBefore Mon 5 24;' + sub(7, 1) + 'NthDay 1 Mon 8; NthDay 1 Mon 9;' + yr(2021, MAX, sub(9, 30)) + 'NthDay 2 Mon 10;' + sub(11, 11) + xmas()
C['chile'] = F(1, 1) + yr(2017, MAX, mv(1, 1, ('Sun', 1))) + E(-2, -1) + F(5, 1, 21) + yr(2021, MAX, F(6, 21)) + mv(6, 29, ('Mon', 0), ('Tue', -1), ('Wed', -2), ('Thu', -3), ('Fri', 3)) + F(7, 16) + F(8, 15) + yr(2007, MAX, mv(9, 18, ('Tue', -1))) + yr(2017, MAX, mv(9, 18, ('Sat', -1))) + F(9, 18, 19) + yr(2007, MAX, mv(9, 19, ('Thu', 1))) + mv(10, 12, ('Mon', 0), ('Tue', -1), ('Wed', -2), ('Thu', -3), ('Fri', 3)) + yr(2008, MAX, mv(10, 31, ('Mon; Thu; Fri; Sat; Sun', 0), ('Tue', -4), ('Wed', 2))) + F(11, 1) + F(12, 8, 25)
C['czech_republic'] = F(1, 1) + yr(2016, MAX, E(-2)) + E(1) + F(5, 1, 8) + F(7, 5, 6) + F(9, 28) + F(10, 28) + F(11, 17) + F(12, 24, 25, 26) + once((2004, 1, 2), (2004, 12, 31))
C['denmark'] = F(1, 1) + E(-3, -2, 1) + yr(0, 2023, E(26)) + E(39) + yr(2009, MAX, E(40)) + E(50) + F(6, 5) + F(12, 24, 25, 26, 31)
C['finland'] = F(1, 1, 6) + E(-2, 1, 39) + F(5, 1) + 'OnOrAfter Fri 6 18;' + F(12, 6, 24, 25, 26)
C['france'] = F(1, 1) + E(1) + F(5, 1, 8, 10, 21) + F(7, 14) + F(8, 15) + F(11, 1, 11) + F(12, 25)
C['germany'] = F(1, 1) + E(-2, 1, 39, 50, 60) + F(5, 1) + F(10, 3) + F(12, 24, 25, 26)
C['hungary'] = F(1, 1) + F(3, 15) + E(-2, 1, 50) + F(5, 1) + F(8, 20) + F(10, 23) + F(11, 1) + F(12, 25, 26)
C['iceland'] = F(1, 1) + E(-3, -2, 1, 39, 50) + 'OnOrAfter Thu 4 19;' + F(5, 1) + F(6, 17) + 'NthDay 1 Mon 8;' + F(12, 24, 25, 26, 31)
C['italy'] = F(1, 1, 6) + E(1) + F(4, 25) + F(5, 1) + F(6, 2) + F(8, 15) + F(11, 1) + F(12, 8, 25, 26)
C['mexico'] = F(1, 1) + 'NthDay 1 Mon 2; NthDay 3 Mon 3;' + F(5, 1) + F(9, 16) + 'NthDay 3 Mon 11; Every 6 2018 (Fixed 10 1);' + F(12, 25)
C['netherlands'] = F(1, 1) + E(-2, 0, 1, 39, 49, 50) + mv(4, 27, ('Mon; Tue; Wed; Thu; Fri; Sat', 0), ('Sun', -1)) + 'Between 2020 9999 (Every 5 2020 (Fixed 5 5));' + F(12, 25, 26)
mat = [(2022,6,24),(2023,7,14),(2024,6,28),(2025,6,20),(2026,7,10),(2027,6,25),(2028,7,14),(2029,7,6),(2030,6,21),(2031,7,11),(2032,7,2),(2033,6,24),(2034,7,7),(2035,6,29),(2036,7,18),(2037,7,10),(2038,6,25),(2039,7,15),(2040,7,6),(2041,7,19),(2042,7,11),(2043,7,3),(2044,6,24),(2045,7,7),(2046,6,29),(2047,7,19),(2048,7,3),(2049,6,25),(2050,7,15),(2051,6,30),(2052,6,21)]
C['new_zealand'] = ' '.join('Fixed 1 %d; Moved [Sat; Sun] 2 (Fixed 1 %d);' % (d, d) for d in (1, 2)) + 'Nearest Mon 1 22;' + F(2, 6) + yr(2014, MAX, mv(2, 6, ('Sat', 2), ('Sun', 1))) + E(-2, 1) + F(4, 25) + yr(2014, MAX, mv(4, 25, ('Sat', 2), ('Sun', 1))) + 'NthDay 1 Mon 6; NthDay 4 Mon 10;' + xmas() + once(*mat)
C['switzerland'] = F(1, 1, 2) + E(-2, 1, 39, 50) + F(5, 1) + F(8, 1) + F(12, 24, 25, 26, 31)
C['united_kingdom'] = sub(1, 1) + E(-2, 1) + 'Except [1995; 2020] (NthDay 1 Mon 5); Except [2002; 2012; 2022] (LastDay Mon 5); LastDay Mon 8;' + xmas() + once((1995, 5, 8), (1999, 12, 31), (2002, 6, 3), (2002, 6, 4), (2011, 4, 29), (2012, 6, 4), (2012, 6, 5), (2020, 5, 8), (2022, 6, 2), (2022, 6, 3), (2022, 9, 19), (2023, 5, 8))
C['united_states'] = us(1, 1) + yr(1983, MAX, 'NthDay 3 Mon 1;') + yr(1971, MAX, 'NthDay 3 Mon 2; LastDay Mon 5; NthDay 2 Mon 10;') + yr(0, 1970, us(2, 22) + us(5, 30)) + yr(2022, MAX, us(6, 19)) + us(7, 4) + 'NthDay 1 Mon 9;' + yr(0, 1970, us(11, 11)) + yr(1978, MAX, us(11, 11)) + yr(1971, 1977, 'NthDay 4 Mon 10;') + 'NthDay 4 Thu 11;' + us(12, 25)
T = {}
T['hong_kong'] = (sun(1, 1) + E(-2, 1) + sun(5, 1) + sun(7, 1) + sun(10, 1) + F(12, 25, 26), 2004, 2020)
T['singapore'] = (sun(1, 1) + E(-2) + sun(5, 1) + sun(8, 9) + sun(12, 25) + ' '.join('Fixed %d 25;' % m for m in range(1, 12)), 2004, 2024)
T['india'] = (F(1, 26) + E(-2) + F(5, 1) + F(8, 15) + F(10, 2) + F(12, 25), 2000, 2029)
T['indonesia'] = (F(1, 1) + E(-2, 39) + F(5, 1) + F(6, 1) + F(8, 17) + F(12, 25, 26) + once((2007, 5, 18), (2008, 5, 2), (2024, 5, 10)), None, 2025)
import re
model = open(os.path.join(root, 'rocq/theories/CountryModel.v')).read()
def helpers(c):
    return re.findall(r'^Definition (%s_(?!rule)\w+) \(y m d wd yd em' % c, model, re.M)
def wrap(s):
    import textwrap
    toks = [t.strip() for t in re.split(r';(?![^\[\(]*[\]\)])', s) if t.strip()]
    return textwrap.fill('[' + '; '.join(toks) + ']', 118, initial_indent='  ', subsequent_indent='   ', break_long_words=False, break_on_hyphens=False)
out = [open(os.path.join(root, 'tools/country_props_head.txt')).read()]
day = {'argentina': (2024, 3, 28), 'australia': (2022, 1, 3), 'austria': (2024, 5, 30), 'botswana': (2023, 1, 3), 'brazil': (2024, 2, 13),
  'canada': (2023, 10, 2), 'chile': (2023, 10, 27), 'czech_republic': (2024, 3, 29), 'denmark': (2023, 5, 5), 'finland': (2024, 6, 21),
  'france': (2024, 4, 1), 'germany': (2024, 5, 20), 'hungary': (2024, 5, 20), 'iceland': (2024, 4, 25), 'italy': (2024, 4, 1),
  'mexico': (2024, 10, 1), 'netherlands': (2025, 4, 26), 'new_zealand': (2024, 6, 28), 'switzerland': (2024, 5, 9),
  'united_kingdom': (2022, 6, 3), 'united_states': (2021, 12, 31), 'hong_kong': (2019, 2, 6), 'singapore': (2024, 5, 22),
  'india': (2024, 10, 31), 'indonesia': (2024, 5, 9)}
def case(c):
    return '''Example %s_case : valid (Date %d %d %d) /\\ country %s_rule (Date %d %d %d) = Some true /\\ country %s_rule (Date 2024 6 12) = Some false.
Proof. split; [repeat split; cbn; lia|split; vm_compute; reflexivity]. Qed.
''' % ((c,) + day[c] + (c,) + day[c] + (c,))
for c, s in C.items():
    hs = ' '.join('%s' % h for h in helpers(c))
    unf = ', '.join([c + '_rule', c + '_rules'] + helpers(c))
    out.append('''Definition %s_rules : list hrule :=
%s.
Theorem %s_holidays : forall d, valid d -> 1901 <= year d <= 2199 ->
  (country %s_rule d = Some true <-> holiday_by %s_rules d).
Proof. intros d V Y. apply country_flat; [assumption|assumption|reflexivity|]. intros em. unfold rule_at, %s. prove_country d V Y. Qed.
Print Assumptions %s_holidays.
''' % (c, wrap(s), c, c, c, unf, c))
    out.append(case(c))
for c, (s, y0, y1) in T.items():
    hs = helpers(c)
    out.append('''Definition %s_rules : list hrule :=
%s.
(** the movable feasts, listed year by year in the code *)
Definition %s_tables (dt : date) : bool :=
  let f (g : Z -> Z -> Z -> Z -> Z -> Z -> bool) := g (year dt) (month dt) (day dt) (weekday dt) (ordinal dt) 0 in
  %s.
Theorem %s_holidays : forall d, valid d -> 1901 <= year d <= 2199 ->
  (country %s_rule d = Some true <-> holiday_by %s_rules d \\/ %s_tables d = true).
Proof.
  intros d V Y. apply country_flat_or; [assumption|assumption|reflexivity|]. intros em. unfold rule_at, %s_rule, %s_rules, %s_tables. cbv zeta.
  %s
  prove_country d V Y.
Qed.
Print Assumptions %s_holidays.
Theorem %s_coverage : forall d, %s_tables d = true -> %s.
Proof.
  intros d. unfold %s_tables, %s. intros H. breakH; lia.
Qed.
Print Assumptions %s_coverage.
''' % (c, wrap(s), c, '\n  || '.join('f ' + h for h in hs), c, c, c, c, c, c, c,
       '\n  '.join('change (%s (year d) (month d) (day d) (weekday d) (ordinal d) 0) with (%s (year d) (month d) (day d) (weekday d) (ordinal d) em); generalize (%s (year d) (month d) (day d) (weekday d) (ordinal d) em); intros ?.' % (h, h, h) for h in hs),
       c, c, c, ('%d <= year d <= %d' % (y0, y1)) if y0 else 'year d <= %d' % y1, c, ', '.join(hs), c))
    out.append(case(c))
open(os.path.join(root, 'rocq/theories/CountryProps.v'), 'w').write(''.join(out))
