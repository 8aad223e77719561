#!/usr/bin/env python3
"""Turn the raw results of a mutation run into lines of seeded/LOG.jsonl (one JSON line per attempt)."""
import json, sys
TIGHT = {
 "m13-041": ["C127_any_case"],
 "garch-028": ["C86_gjr_constraint_is_stationarity", "C86_gjr_estimates"],
 "garch-037": ["C07_nan_residual"],
 "mgarch-051": ["C86_ccc_feasible_set", "C86_ccc_estimates"],
 "mgarch-050": ["C86_ccc_feasible_set", "C86_ccc_estimates"],
 "mgarch-048": ["C17_objective"],
 "mgarch-065": ["C86_dcc_feasible_set", "C86_dcc_estimates"],
 "iforest-056": ["C60_distinct_engine_seeds"],
 "pin-076": ["C56_shape_mismatch", "C56_new_object"],
 "merton-120": ["C85_growth_defaults_to_zero"],
 "merton-139": ["C74_residuals"],
 "m4-simulation-003": ["C87_nan_state"],
 "m5-option-013": ["C40_overflow", "C40_overflow_only"],
 "m5-merton-207": ["C98_refines"],
 "m9-iforest-103": ["C57_string_split", "C57_string_children", "C57_string_order"],
 "m9-iforest-147": ["C57_string_split", "C57_string_children", "C57_string_order"],
 "m10-micro-061": ["C50_wrong_dimensions"],
 "m10-micro-120": ["C48_shape_errors"],
 "m10-micro-306": ["C48_shape_errors"],
 "m10-iforest-155": ["C96_conversion"],
 "m10-srisk-196": ["C108_single_firm_aggregate"],
 "m10-option-271": ["C40_domain"],
 **{f"m8-simulate-{n}": ["C103_alternatives", "C103_exact"] for n in ("019", "057", "046", "050", "072", "086")},
}
EQUIV = {
 "m10-ndarray-039": "equivalent edit: the default value of nth is never used",
 "m10-singlearrays-332": "equivalent edit: sort indices are always in range, so the IndexError is never reached",
 "m10-pin-336": "equivalent edit: the index only numbers the calls of the solver oracle",
 "m10-matlab-319": "equivalent edit: the default of nth is never used",
 "m10-garch-137": "equivalent edit: the optimizer only evaluates points with as many coordinates as the start",
 "m10-garch-228": "equivalent edit: an empty series already raised IndexError in the line before",
 "m10-ar-163": "equivalent edit: the default value of nth is never used, the matrix is square",
 "m10-memory-234": "equivalent edit: the contents of the vector are arbitrary",
 "m5-mgarch-114": "equivalent edit: the upper bound on alpha is implied by alpha + beta <= 1 and beta >= 0, so no claim is broken",
 "m5-pin-235": "equivalent edit: the index only numbers the calls of the solver oracle, no claim is broken",
 "m5-ar-240": "equivalent edit: the default value of nth is never used, no claim is broken",
 "m9-measures-064": "equivalent edit: the case is unreachable, a single firm demands floats",
 "m9-measures-153": "equivalent edit: the case is unreachable, a single firm demands floats",
 "m9-memory-081": "equivalent edit: the junk contents of newly allocated cells are never read",
 "m9-memory-184": "equivalent edit: the junk contents of newly allocated cells are never read",
 "m9-ndarray-125": "equivalent edit: the default value of nth is never used",
 "m9-ndarray-213": "equivalent edit: the mask's shape always agrees, the error is never reached",
 "m9-ndarray-137": "equivalent edit: the mask's shape always agrees, the error is never reached",
 "m9-ar-162": "equivalent edit: the covariance of a matrix without rows is empty whatever n_days is",
 "m9-imports-187": "equivalent edit: no other error than a failed import arises inside a guarded import",
 "m7-ndarray-052": "equivalent edit: reshapeF's ValueError is never reached, no claim is broken",
}
if len(sys.argv) > 2 and sys.argv[1] == "--tight":
    TIGHT.update(json.load(open(sys.argv[2]))); sys.argv[1:3] = []
res = {}
first = {}
for f in sys.argv[1:]:
    for l in open(f):
        d = json.loads(l)
        first.setdefault(d["id"], d)
        if d.get("ok"): res[d["id"]] = d
        else: res.setdefault(d["id"], d)
for k, d in res.items():
    if "error" in d: continue
    if k.startswith(("m5-", "m7-", "m8-", "m9-", "m10-")) and not d.get("ok"): continue   # generated edits that do not typecheck
    f0 = first[k]
    line = {"definition": f'{d["file"]}:{d["defn"]}', "edit": {"old": d["old"], "new": d["new"]}, "claim_broken": d["claim"],
            "theorems_failed": d["failed"], "theorems_tightened": TIGHT.get(k, [])}
    if k in TIGHT: line["note"] = "survived the first run (no theorem failed); the theorems listed as tightened were added and the edit was run again"
    if k in EQUIV: line["note"] = EQUIV[k]
    if not d.get("ok"): line["note"] = "the edited model no longer typechecks against the statements; not a usable attempt"
    print(json.dumps(line, ensure_ascii=False))
