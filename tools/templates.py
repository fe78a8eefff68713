"""Generate rocq/theories/TemplateText.v from the texts of /repo/src/sympkf/symbolic/templates.

The files are read as text; the literal assigned to `template` is evaluated with ast."""
import ast

base = '/repo/src/sympkf/symbolic/templates/'
files = [('licence', 'licence.py'), ('header', 'header.py'), ('body_FD', 'body_FDModelBuilder.py'),
         ('body_Manifold', 'body_ManifoldModelBuilder.py'), ('footer', 'footer.py')]
out = ['(** The template literals of /repo/src/sympkf/symbolic/templates, verbatim: licence.py, header.py,',
       '    body_FDModelBuilder.py, body_ManifoldModelBuilder.py, footer.py.  Generated by',
       '    tools/templates.py; a double quote is written twice in a Coq string, and the backslash before a',
       '    line break in body_ManifoldModelBuilder.py 9 has vanished with the line break, as in the value of',
       "    the Python literal. *)",
       'From Coq Require Import String.', 'Local Open Scope string_scope.', '']
for name, f in files:
    text = open(base + f).read()
    value = ast.literal_eval(ast.parse(text).body[0].value)
    assert all(ord(c) < 128 for c in value)
    last = text.count('\n', 0, text.rindex("'''")) + 1
    out.append(f'(** templates/{f} 1-{last} *)')
    out.append(f'Definition {name} : string :=\n"' + value.replace('"', '""') + '".\n')
open('/verif/rocq/theories/TemplateText.v', 'w').write('\n'.join(out))
