Conformance run of the model (binary64 instance) against the expected vectors in
/repo/tests.  These are tests, not proofs, and are not part of the Coq build.

    mkdir /tmp/conf && cp tools/conformance/* /tmp/conf && cd /tmp/conf
    mv TestLibm.v.txt TestLibm.v
    # copy the model files of rocq/theories next to it and compile them with -Q . Verif
    python3 parse.py        # extracts calls and expected vectors -> tests.json
    python3 drive.py        # writes run.v (one Eval vm_compute per call) and exp.json
    coqc -Q . Verif TestLibm.v && coqc -Q . Verif run.v > out.txt
    python3 cmp.py          # compares; prints "exact N other M"

Result at the pinned commit: 195 vectors agree bit for bit.  The remaining ones:
`mic` differs by one ulp (the repository compares that test with a tolerance and
the sum depends on a HashMap order), the 41-item vectors of `dcor`/`mic` are
inputs, `frama` with window 3 is expected to return `Err`, `kdj` and `rank` are
artefacts of the extraction script (checked by hand).
`TestLibm.v.txt` is a correctly rounded-in-practice libm used only here.
