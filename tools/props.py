# Source of properties.jsonl and MANIFEST.json.  Run: python3 tools/props.py
# P(id, title, statement, quantifier, why_tests_cant, anchors) in props_data.py;
# status.py: STATUS[id] = (status, note); theorem names are read from *_Props.v.
import json, os, re, glob
HERE = os.path.dirname(os.path.dirname(os.path.abspath(__file__)))
ROWS = []; STATUS = {}
def P(id, title, statement, quantifier, why, anchors):
    ROWS.append(dict(id=id, title=title, statement=statement, quantifier=quantifier,
                     why_tests_cant=why, anchors=anchors))
exec(open(os.path.join(HERE, "tools", "props_data.py")).read())
exec(open(os.path.join(HERE, "tools", "status.py")).read())
listed = [l.strip() for l in open(os.path.join(HERE, "rocq/_CoqProject")) if l.strip().endswith(".v")]
TH = {}
for f in sorted(listed):
    if re.search(r"_Props\d*\.v$", f):
        for m in re.finditer(r"^\s*Theorem ((C\d\d+)_\w+)", open(os.path.join(HERE, "rocq", f)).read(), re.M):
            TH.setdefault(m.group(2), []).append(m.group(1))
with open(os.path.join(HERE, "properties.jsonl"), "w") as f:
    for r in ROWS:
        f.write(json.dumps(r, ensure_ascii=False) + "\n")
claims = []
for r in ROWS:
    st, note = STATUS.get(r["id"], ("partial", "proof in progress"))
    claims.append({"property": r["id"], "status": st, "theorems": TH.get(r["id"], []), "note": note})
with open(os.path.join(HERE, "MANIFEST.json"), "w") as f:
    json.dump({"claims": claims}, f, ensure_ascii=False, indent=1)
ids = [r["id"] for r in ROWS]; assert len(ids) == len(set(ids))
for k in TH: assert k in ids, k
print(len(ROWS), "properties", sum(map(len, TH.values())), "theorems;", "missing:", [r["id"] for r in ROWS if r["id"] not in TH])
