"""Lists every _refuted theorem with the comment above it in DESIGN.md, between the markers."""
import os
import re

here = os.path.dirname(os.path.dirname(os.path.abspath(__file__)))
rows = []
theories = os.path.join(here, "rocq", "theories")
for f in sorted(os.listdir(theories)):
    if not f.endswith("Props.v"):
        continue
    t = open(os.path.join(theories, f)).read()
    for m in re.finditer(r"Theorem (c\d+_\w*refuted)", t):
        i = t.rfind("(*", 0, m.start())
        j = t.find("*)", i)
        text = re.sub(r"\s+", " ", t[i + 2:j].strip(" *")).replace("...", "").strip()
        text = re.sub(r"^(C\d+,? ?)?([Ff]inding: |refuted: )", "", text)
        rows.append((m.group(1), text[:1].upper() + text[1:]))
rows.sort()
body = "\n".join("* `%s`: %s" % r for r in rows)
p = os.path.join(here, "DESIGN.md")
s = open(p).read()
a, b = "<!-- refuted -->", "<!-- /refuted -->"
i, j = s.index(a) + len(a), s.index(b)
open(p, "w").write(s[:i] + "\n" + body + "\n" + s[j:])
print(len(rows), "refuted theorems")
