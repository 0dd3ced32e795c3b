{
"C01": {"note": "both code paths and the pure-Python fallback"},
"C05": {"note": "fan-out condition shown necessary by C05_fanout_condition_refuted"},
"C06": {"note": "last bit position unused: with all 128 positions in use the code reads past the array"}
}
