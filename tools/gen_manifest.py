#!/usr/bin/env python3
# Generates /verif/MANIFEST.json.
import json, os
C = []
def c(prop, status, theorems, note=""):
    C.append(dict(property=prop, status=status, theorems=theorems, note=note))
exec(open(os.path.join(os.path.dirname(os.path.abspath(__file__)), "claims.py")).read())
out = os.path.join(os.path.dirname(os.path.abspath(__file__)), "..", "MANIFEST.json")
json.dump({"claims": C}, open(out, "w"), indent=1)
