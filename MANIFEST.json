{
 "claims": [
  {
   "property": "C01",
   "status": "proved",
   "theorems": [
    "C01_naive",
    "C01_process"
   ],
   "note": "exact reals, every length"
  },
  {
   "property": "C02",
   "status": "proved",
   "theorems": [
    "C02_butterflies"
   ],
   "note": "exact reals"
  },
  {
   "property": "C03",
   "status": "proved",
   "theorems": [
    "C03_mixed_radix"
   ],
   "note": "exact reals with the exact constant sqrt(1/2); see C32/C33 for the f32 constant"
  },
  {
   "property": "C04",
   "status": "proved",
   "theorems": [
    "C04_2xn"
   ],
   "note": "inner instance with in-place scratch <= outer length and no out-of-place scratch (all library instances qualify, C26_sizes)"
  },
  {
   "property": "C05",
   "status": "proved",
   "theorems": [
    "C05_3xn"
   ],
   "note": "inner instance with in-place scratch <= outer length and no out-of-place scratch (all library instances qualify, C26_sizes)"
  },
  {
   "property": "C06",
   "status": "proved",
   "theorems": [
    "C06_4xn"
   ],
   "note": "inner instance with in-place scratch <= outer length and no out-of-place scratch (all library instances qualify, C26_sizes)"
  },
  {
   "property": "C07",
   "status": "proved",
   "theorems": [
    "C07_5xn"
   ],
   "note": "inner instance with in-place scratch <= outer length and no out-of-place scratch (all library instances qualify, C26_sizes)"
  },
  {
   "property": "C08",
   "status": "proved",
   "theorems": [
    "C08_6xn"
   ],
   "note": "inner instance with in-place scratch <= outer length and no out-of-place scratch (all library instances qualify, C26_sizes)"
  },
  {
   "property": "C09",
   "status": "proved",
   "theorems": [
    "C09_split_radix"
   ],
   "note": "exact reals"
  },
  {
   "property": "C10",
   "status": "partial",
   "theorems": [
    "C10_radix4_upto_64_partial",
    "C10_radix4_refuted",
    "C10_radix4_computes"
   ],
   "note": "false for every length >= 128 (proved wrong, and what it computes is characterised); true for 1..64"
  },
  {
   "property": "C11",
   "status": "proved",
   "theorems": [
    "C11_raders"
   ],
   "note": "exact reals, primes 3..2^32; p = 2 cannot be constructed (C27_refuted)"
  },
  {
   "property": "C12",
   "status": "proved",
   "theorems": [
    "C12_nesting"
   ],
   "note": "all finite nestings with Radix4 leaves of length <= 64"
  },
  {
   "property": "C13",
   "status": "proved",
   "theorems": [
    "C13_same_result"
   ],
   "note": "nonzero length, any number type"
  },
  {
   "property": "C14",
   "status": "proved",
   "theorems": [
    "C14_scratch_inplace",
    "C14_scratch_outofplace"
   ],
   "note": ""
  },
  {
   "property": "C15",
   "status": "proved",
   "theorems": [
    "C15_chunkwise"
   ],
   "note": ""
  },
  {
   "property": "C16",
   "status": "partial",
   "theorems": [
    "C16_refuted",
    "C16_panics_partial",
    "C16_butterfly1"
   ],
   "note": "Butterfly1 never checks in place; every other instance panics exactly as documented"
  },
  {
   "property": "C17",
   "status": "proved",
   "theorems": [
    "C17_memory_safe"
   ],
   "note": "inner instances may be any length-preserving functions that panic or compute garbage"
  },
  {
   "property": "C18",
   "status": "proved",
   "theorems": [
    "C18_terminates",
    "C18_process"
   ],
   "note": ""
  },
  {
   "property": "C19",
   "status": "proved",
   "theorems": [
    "C19_mixed_radix",
    "C19_raders"
   ],
   "note": "Rader for primes 3..2^32"
  },
  {
   "property": "C20",
   "status": "partial",
   "theorems": [
    "C20_refuted",
    "C20_exact",
    "C20_exact_split",
    "C20_modest_partial"
   ],
   "note": "false; exact condition proved"
  },
  {
   "property": "C21",
   "status": "proved",
   "theorems": [
    "C21_involution"
   ],
   "note": ""
  },
  {
   "property": "C22",
   "status": "proved",
   "theorems": [
    "C22_linear"
   ],
   "note": ""
  },
  {
   "property": "C23",
   "status": "proved",
   "theorems": [
    "C23_parseval"
   ],
   "note": ""
  },
  {
   "property": "C24",
   "status": "proved",
   "theorems": [
    "C24_reversed_tail",
    "C24_reversed"
   ],
   "note": ""
  },
  {
   "property": "C25",
   "status": "proved",
   "theorems": [
    "C25_convolution"
   ],
   "note": ""
  },
  {
   "property": "C26",
   "status": "proved",
   "theorems": [
    "C26_lengths",
    "C26_sizes"
   ],
   "note": ""
  },
  {
   "property": "C27",
   "status": "partial",
   "theorems": [
    "C27_radix4",
    "C27_split_radix",
    "C27_refuted",
    "C27_large_refuted",
    "C27_raders_partial"
   ],
   "note": "false for RadersAlgorithm at length 2 and above 2^32"
  },
  {
   "property": "C28",
   "status": "proved",
   "theorems": [
    "C28_primitive_root",
    "C28_root_and_inverse"
   ],
   "note": ""
  },
  {
   "property": "C29",
   "status": "partial",
   "theorems": [
    "C29_refuted",
    "C29_modular_exponent_partial"
   ],
   "note": "false only for modulo = 1, exponent = 0"
  },
  {
   "property": "C30",
   "status": "partial",
   "theorems": [
    "C30_refuted",
    "C30_factors_partial",
    "C30_stops",
    "C30_zero_hangs"
   ],
   "note": "false for 16777259^2; exact below 2^48; stops for every n >= 1"
  },
  {
   "property": "C31",
   "status": "partial",
   "theorems": [
    "C31_refuted"
   ],
   "note": "false at the first prime above 2^32"
  },
  {
   "property": "C32",
   "status": "partial",
   "theorems": [
    "C32_mixed_radix_refuted",
    "C32_3xn_refuted",
    "C32_5xn_refuted",
    "C32_6xn_refuted",
    "C32_f32_partial"
   ],
   "note": "false for f64: sqrt(1/2) is taken in f32; error > 2^-26 sum|x| at every size; fine for f32"
  },
  {
   "property": "C33",
   "status": "proved",
   "theorems": [
    "C33_mixed_radix",
    "C33_3xn",
    "C33_5xn",
    "C33_6xn",
    "C33_bound"
   ],
   "note": "with the smaller factor sqrt 2"
  },
  {
   "property": "C34",
   "status": "proved",
   "theorems": [
    "C34_naive"
   ],
   "note": "standard rounding model with underflow and overflow"
  },
  {
   "property": "C35",
   "status": "proved",
   "theorems": [
    "C35_zero_length"
   ],
   "note": ""
  },
  {
   "property": "C36",
   "status": "partial",
   "theorems": [
    "C36_iter_chunks",
    "C36_refuted",
    "C36_zipped_partial",
    "C36_zipped_reports"
   ],
   "note": "iter_chunks_zipped does not report a longer second buffer"
  },
  {
   "property": "C37",
   "status": "proved",
   "theorems": [
    "C37_no_overflow",
    "C37_product"
   ],
   "note": ""
  },
  {
   "property": "C38",
   "status": "proved",
   "theorems": [
    "C38_3xn",
    "C38_5xn",
    "C38_6xn",
    "C38_radix4_base",
    "C38_radix4_layer"
   ],
   "note": "any number type"
  },
  {
   "property": "C39",
   "status": "proved",
   "theorems": [
    "C39_butterflies"
   ],
   "note": ""
  },
  {
   "property": "C40",
   "status": "proved",
   "theorems": [
    "C40_mixed_radix",
    "C40_2xn",
    "C40_3xn",
    "C40_4xn",
    "C40_5xn",
    "C40_6xn",
    "C40_split_radix",
    "C40_raders",
    "C40_radix4"
   ],
   "note": "Radix4 only up to 64: above, it computes something else (C10)"
  },
  {
   "property": "C41",
   "status": "proved",
   "theorems": [
    "C41_trees",
    "C41_covers",
    "C41_length",
    "C41_linear"
   ],
   "note": ""
  },
  {
   "property": "C42",
   "status": "proved",
   "theorems": [
    "C42_f32_rounded",
    "C42_f64_rounded",
    "C42_f32",
    "C42_f64"
   ],
   "note": "libm accuracy is a hypothesis (shown satisfiable); one NaN, Flocq binary32/64"
  },
  {
   "property": "C43",
   "status": "proved",
   "theorems": [
    "C43_round_trip"
   ],
   "note": ""
  },
  {
   "property": "C44",
   "status": "proved",
   "theorems": [
    "C44_f32",
    "C44_f64"
   ],
   "note": ""
  },
  {
   "property": "C45",
   "status": "partial",
   "theorems": [
    "C45_f64_mixed_radix_refuted"
   ],
   "note": "false: sqrt(1/2) is taken in f32 (C32); the witness is a 2x2 MixedRadix in IEEE f64; compositions without MixedRadix, 3xn, 5xn, 6xn have rho-free bounds (C40)"
  },
  {
   "property": "C46",
   "status": "proved",
   "theorems": [
    "C46_trees",
    "C46_assembled"
   ],
   "note": ""
  },
  {
   "property": "C47",
   "status": "proved",
   "theorems": [
    "C47_spoils",
    "C47_f32",
    "C47_f64"
   ],
   "note": "any cos and sin; the coefficient condition is needed (C47_needed)"
  },
  {
   "property": "C48",
   "status": "proved",
   "theorems": [
    "C48_f32",
    "C48_f64"
   ],
   "note": "any cos and sin; up to the sign of zeros"
  },
  {
   "property": "C49",
   "status": "proved",
   "theorems": [
    "C49_f32",
    "C49_f64"
   ],
   "note": "any cos and sin"
  },
  {
   "property": "C50",
   "status": "proved",
   "theorems": [
    "C50_parametric"
   ],
   "note": ""
  },
  {
   "property": "C51",
   "status": "partial",
   "theorems": [
    "C51_constructors",
    "C51_split_debug",
    "C51_split_refuted",
    "C51_trees"
   ],
   "note": "false for SplitRadix in a release build over instances of arbitrary reported length (C51_split_refuted); proved for the other constructors, for SplitRadix in debug builds, and for all compositions of library instances; elements of at least 2 (4 for compositions) bytes"
  },
  {
   "property": "C52",
   "status": "proved",
   "theorems": [
    "C52_agree",
    "C52_complete",
    "C52_fit64"
   ],
   "note": "elements of at least 4 bytes; a chunk of each part within isize::MAX bytes (agree) or 2^28/2^60 bytes (complete); on 32 bits, Rader lengths satisfying rader_fits (C77)"
  },
  {
   "property": "C53",
   "status": "proved",
   "theorems": [
    "C53_root",
    "C53_rader",
    "C53_nesting"
   ],
   "note": "debug builds only; release builds: C31_refuted"
  },
  {
   "property": "C54",
   "status": "proved",
   "theorems": [
    "C54_f32",
    "C54_f64"
   ],
   "note": "debug builds; any accurate cos and sin"
  },
  {
   "property": "C55",
   "status": "proved",
   "theorems": [
    "C55_constructors",
    "C55_trees",
    "C55_complete"
   ],
   "note": "elements of at least 4 bytes; SplitRadix and RadersAlgorithm over safe Rust inner instances; RadersAlgorithm below 2^63"
  },
  {
   "property": "C56",
   "status": "proved",
   "theorems": [
    "C56_euclid",
    "C56_roots"
   ],
   "note": "num-integer's loop, from its source"
  },
  {
   "property": "C57",
   "status": "proved",
   "theorems": [
    "C57_safe",
    "C57_exact",
    "C57_f32",
    "C57_f64"
   ],
   "note": "a chunk of each part within isize::MAX bytes; Radix4 up to 64, Rader up to 2^32 (any in debug builds); C57_safe without these limits"
  },
  {
   "property": "C58",
   "status": "proved",
   "theorems": [
    "C58_f32",
    "C58_f64",
    "C58_scalar",
    "C58_butterflies",
    "C58_naive"
   ],
   "note": "random signals are any finite numbers in [0, 10]; any accurate cos and sin"
  },
  {
   "property": "C59",
   "status": "proved",
   "theorems": [
    "C59_compare_f32",
    "C59_compare_f64",
    "C59_f32",
    "C59_f64"
   ],
   "note": "lengths up to 10000"
  },
  {
   "property": "C60",
   "status": "proved",
   "theorems": [
    "C60_output_f32",
    "C60_output_f64",
    "C60_chunks",
    "C60_zero",
    "C60_precision"
   ],
   "note": "wrong programs accepted by the test helper"
  },
  {
   "property": "C61",
   "status": "proved",
   "theorems": [
    "C61_mixed",
    "C61_test"
   ],
   "note": "lawless T"
  },
  {
   "property": "C62",
   "status": "proved",
   "theorems": [
    "C62_assembled",
    "C62_raders"
   ],
   "note": "lawless T; Rader's algorithm up to 2^32"
  },
  {
   "property": "C63",
   "status": "proved",
   "theorems": [
    "C63_noop",
    "C63_raders_noop",
    "C63_raders_power2",
    "C63_radix4",
    "C63_lengths",
    "C63_butterflies",
    "C63_made",
    "C63_short",
    "C63_silent"
   ],
   "note": "lawless T, unbounded lengths; C63_made over exact reals"
  },
  {
   "property": "C64",
   "status": "proved",
   "theorems": [
    "C64_trees",
    "C64_rader",
    "C64_relative",
    "C64_energy",
    "C64_twice",
    "C64_fours_f32",
    "C64_fours_f64",
    "C64_splits_f32",
    "C64_splits_f64",
    "C64_primes_f32",
    "C64_primes_f64"
   ],
   "note": "Radix4 up to 64, Rader up to 2^32; the naive algorithm and the butterflies count with their worst case error"
  },
  {
   "property": "C65",
   "status": "proved",
   "theorems": [
    "C65_exists",
    "C65_unique",
    "C65_read_off"
   ],
   "note": "lawless T; Rader lengths up to 2^32 (in_range)"
  },
  {
   "property": "C66",
   "status": "proved",
   "theorems": [
    "C66_f32",
    "C66_f64"
   ],
   "note": "range condition on the operations of the run"
  },
  {
   "property": "C67",
   "status": "proved",
   "theorems": [
    "C67_any",
    "C67_fours_f32",
    "C67_fours_f64",
    "C67_splits_f32",
    "C67_splits_f64",
    "C67_primes_f32",
    "C67_primes_f64"
   ],
   "note": "libm accurate to 2^-52"
  },
  {
   "property": "C68",
   "status": "proved",
   "theorems": [
    "C68_fourier",
    "C68_rotate",
    "C68_rounded"
   ],
   "note": ""
  },
  {
   "property": "C69",
   "status": "proved",
   "theorems": [
    "C69_math",
    "C69_constructors",
    "C69_calls",
    "C69_exact",
    "C69_f32",
    "C69_f64"
   ],
   "note": "overflow checks are the only modelled difference between the profiles"
  },
  {
   "property": "C70",
   "status": "proved",
   "theorems": [
    "C70_every",
    "C70_run",
    "C70_only",
    "C70_exactly"
   ],
   "note": ""
  },
  {
   "property": "C71",
   "status": "proved",
   "theorems": [
    "C71_trees",
    "C71_flies",
    "C71_kxn",
    "C71_others"
   ],
   "note": ""
  },
  {
   "property": "C72",
   "status": "proved",
   "theorems": [
    "C72_trees",
    "C72_leaves",
    "C72_fast",
    "C72_splits",
    "C72_fours"
   ],
   "note": "equal subexpressions count once; constants computed by the constructors are free"
  },
  {
   "property": "C73",
   "status": "proved",
   "theorems": [
    "C73_repair",
    "C73_permutation",
    "C73_keeps",
    "C73_workaround",
    "C73_right"
   ],
   "note": "C73_repair is about Radix4Fix.v, a copy of the model of Radix4 with one expression changed; the others are about the code as it stands"
  },
  {
   "property": "C74",
   "status": "proved",
   "theorems": [
    "C74_faithful",
    "C74_tree",
    "C74_tree_exactly",
    "C74_stacked",
    "C74_separate",
    "C74_repair"
   ],
   "note": "Stacked Borrows and Tree Borrows are proposals; both are modelled for one cell, without protectors"
  },
  {
   "property": "C75",
   "status": "proved",
   "theorems": [
    "C75_backward",
    "C75_continuous",
    "C75_linear"
   ],
   "note": "for instances satisfying rms_close, which C64_trees shows of every tree"
  },
  {
   "property": "C76",
   "status": "proved",
   "theorems": [
    "C76_any",
    "C76_fours_f32",
    "C76_fours_f64",
    "C76_splits_f32",
    "C76_splits_f64",
    "C76_primes_f64"
   ],
   "note": "the combination of the spectra is the caller's code, not the library's"
  },
  {
   "property": "C77",
   "status": "proved",
   "theorems": [
    "C77_targets",
    "C77_range",
    "C77_decide",
    "C77_first",
    "C77_exactly",
    "C77_every",
    "C77_faulty",
    "C77_new",
    "C77_debug",
    "C77_tree",
    "C77_same",
    "C77_large",
    "C77_release",
    "C77_differ",
    "C77_silent"
   ],
   "note": "exact condition for debug builds (any number type) and for release builds (exact reals)"
  },
  {
   "property": "C78",
   "status": "proved",
   "theorems": [
    "C78_constructors",
    "C78_calls",
    "C78_exact",
    "C78_f32",
    "C78_f64"
   ],
   "note": "C78_exact and the error bounds: Radix4 up to 64 (C10)"
  }
 ]
}