"""Append the results of mutate.py to seeded/LOG.jsonl:  mklog.py RESULTS.jsonl [index=theorem,theorem ...] [--after]"""
import json, os, sys
ROOT = os.path.dirname(os.path.dirname(os.path.abspath(__file__)))
titles = {json.loads(l)["id"]: json.loads(l)["title"] for l in open(os.path.join(ROOT, "properties.jsonl"))}
after = "--after" in sys.argv
args = [a for a in sys.argv[2:] if a != "--after"]
tightened = {int(a.split("=")[0]): a.split("=")[1].split(",") for a in args}
short = lambda s: s if len(s) < 160 else s[:157] + "..."
with open(os.path.join(ROOT, "seeded", "LOG.jsonl"), "a") as log:
    for i, line in enumerate(open(sys.argv[1])):
        m = json.loads(line)
        if "error" in m or (after and not m["failed"]):
            continue
        claims = [c.split("_")[0] for c in m["claims"] if any((f + "_").startswith(c + "_") for f in m["failed"])]
        claims = claims or [f.split("_")[0] for f in m["failed"]] or [c.split("_")[0] for c in m["claims"]]
        claim = f"{claims[0]} {titles[claims[0]]}" if claims else "none: the edit leaves every claim true"
        log.write(json.dumps({
            "definition": m["file"] + ":" + m["definition"],
            "edit": ("(after tightening) " if after else "") + f"{m['edit']}: {short(m['old'])} -> {short(m['new'])}",
            "claim": claim, "failed": m["failed"], "tightened": tightened.get(i, [])}) + "\n")
