#!/usr/bin/env python3
"""usage: addprop.py '<json without id>'  -- append a property with the next id"""
import json, sys, os
f = os.path.dirname(os.path.dirname(os.path.abspath(__file__))) + "/properties.jsonl"
n = sum(1 for _ in open(f)) + 1
d = json.loads(sys.argv[1]); o = {"id": "C%02d" % n}; o.update(d)
assert set(o) == {"id", "title", "statement", "quantifier", "why_tests_cant", "anchors"}, o.keys()
open(f, "a").write(json.dumps(o) + "\n"); print(o["id"])
