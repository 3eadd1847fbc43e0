#!/usr/bin/env python3
"""Write rocq/theories/IsoTable.v from the tables of crates/RustQuant_iso."""
import re
d = '/repo/crates/RustQuant_iso/src/'
s = open(d + 'iso_3166.rs', encoding='utf8').read()
arms = re.findall(r'"(\w+)" => Some\((\w+)\)', s)
rows = re.findall(r'^\s+(\w+): "(\w+)", "(\w+)", "(\w+)",', s, re.M)
t = open(d + 'iso_10383.rs', encoding='utf8', errors='replace').read()
mics = re.findall(r'^\s+(\w+): "([^"]*)",\s*"([^"]*)",\s*(\w+),\s*(\w+),', t, re.M)
o = ['(** The tables of crates/RustQuant_iso/src/iso_3166.rs and iso_10383.rs, in source',
     '    order, written by tools/iso_tables.py.  Strings are UTF-8 bytes. *)',
     'From Coq Require Import List String.', 'From Verif Require Import IsoModel.', 'Import ListNotations.',
     'Local Open Scope string_scope.', '']
o += ['(** iso_3166.rs 52-302: the arms of [from_alpha_2] *)', 'Definition arms : list (string * string) := [']
o += [';\n'.join('  ("%s", "%s")' % a for a in arms) + '].']
o += ['(** iso_3166.rs 321-646: the constants *)', 'Definition countries : list (string * iso3166) := [']
o += [';\n'.join('  ("%s", Iso3166 "%s" "%s" "%s")' % r for r in rows) + '].']
o += ['(** iso_10383.rs 95-2711: the constants; city and description are left out *)', 'Definition venues : list venue := [']
o += [';\n'.join('  Venue "%s" "%s" "%s" %s %s' % m for m in mics) + '].']
open('/verif/rocq/theories/IsoTable.v', 'w', encoding='utf8').write('\n'.join(o) + '\n')
print(len(arms), len(rows), len(mics))
