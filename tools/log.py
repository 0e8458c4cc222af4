#!/usr/bin/env python3
"""Turns the output of mutate.py (files given as arguments) into seeded/LOG.jsonl.

TIGHTENED names, per mutant, the theorems strengthened because of it."""
import json, os, sys

ROOT = os.path.dirname(os.path.dirname(os.path.abspath(__file__)))
TIGHTENED = {
    "st19": ["C81_accepted_samples"],
    "st20": ["C81_accepted_samples"],
    "st21": ["C52_power_is_product_with_opposite", "C53_power_is_product_with_opposite"],
    "bp07": ["C94_misuse_raises"],
    "bp08": ["C94_misuse_raises"],
    "bp16": ["C95_wrong_rank_raises"],
    "bp22": ["C94_flag_of_iterations"],
    "ms01": ["C63_classes"],
    "ms02": ["C63_class_of_a_rank"],
    "ms03": ["C63_python_labeller_throws"],
    "sx09": ["C112_spoiled_object"],
}

done = {}
for name in sys.argv[1:]:
    for line in open(name):
        d = json.loads(line)
        done[d["id"]] = d
with open(os.path.join(ROOT, "seeded", "LOG.jsonl"), "w") as f:
    for i, d in sorted(done.items()):
        f.write(json.dumps({
            "id": i,
            "definition": d["file"] + ": " + d["definition"],
            "edit": d["edit"],
            "claim": d["claim"],
            "theorems_failed": d["failed"],
            "still_true_of_the_edited_program": d["survived_of_claim"],
            "theorems_tightened": TIGHTENED.get(i, []),
        }) + "\n")
print(len(done))
