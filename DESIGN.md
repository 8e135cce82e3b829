# Formal model of RustDHT in Rocq/Coq 8.16.1

All of `/repo/src` is modelled, with `src/test_utils.rs` and the `#[cfg(test)]` modules, and `benches/bench_dht.rs` (what the benchmarks run, not how long it takes).
There is no planner in this version of the library: a user composes instances by calling the constructors.

## 1. Shape of the model

* `res A` = `Ok a | Panic | UB | Hang` (Base.v). Checked indexing, `assert!`, `unwrap`, slice ranges and
  `usize` underflow give `Panic`; `get_unchecked`, `RawSlice::load`, `RawSliceMut::store` out of
  range give `UB`; a loop that does not terminate gives `Hang` (fuel exhausted; the theorems show that `Hang` does not
  occur, so the amount of fuel is not an assumption, except for `C30_zero_hangs`, which shows `Hang` for every fuel).
* Slices are `list T`. A function mutating `&mut [T]` returns the new list. Butterflies running in place
  (input and output pointer to the same memory) use an explicit `Alias`/`Sep` memory (Butterflies.v).
* The number type is a *lawless* class `Num T` (Num.v): `0`, `+ - *`, negation, the cos and sin of the angles the code
  computes, `0.5`, `T::from_f32(0.5f32.sqrt())`, `1/n`. Structural theorems hold for every instance.
  Correctness theorems use the exact-real instance `RNum c`, where `c` is the constant standing for sqrt(1/2).
  Error theorems use instances whose operations round, and the IEEE instances `Num_f32`, `Num_f64` (Ieee.v).
* A `Dht` trait object is a record: `len`, the two scratch lengths, and the two processing methods as functions.
  Composite algorithms take such records as inner DHTs, so user-written implementations are covered.
* `profile := Debug | Release` selects overflow panics or wrapping for the u64 arithmetic of `math_utils.rs` and the
  constructor of RadersAlgorithm.

### Model files (definitions only), with the source they follow

| file | source |
|---|---|
| Base.v | the result type, slices: indexing, ranges, `split_at`, `copy_from_slice`, `chunks_exact`, loops |
| Num.v | src/twiddles.rs, the operations of `FftNum` |
| ArrayUtils.v | src/array_utils.rs: iter_chunks, iter_chunks_zipped, transpose_half_rev_out, RawSlice |
| Trait.v | src/lib.rs (trait Dht, dht_error_*), src/macros.rs (both boilerplates) |
| Naive.v, Butterflies.v, MixedRadix.v, SplitRadix.v, Radix4.v, Raders.v | the files of the same name in src/scalar |
| Nxn.v | src/scalar/radix2.rs, radix3.rs, radix4.rs (MixedRadix4xn), radix5.rs, radix6.rs |
| MathUtils.v | src/math_utils.rs on u64, with `(n as f32).sqrt() as u64` in Flocq's binary32 |
| New.v | the constructors of src/scalar again, on 32-bit or 64-bit `usize` and with `Vec` capacity overflow |
| Proc.v | constructors and processing functions of src/scalar and transpose_half_rev_out again, on 32-bit or 64-bit `usize` and on `i64` |
| Ieee.v | f32 and f64, and the f64 angle computation of src/twiddles.rs |
| TestUtils.v | src/test_utils.rs and the unit tests of src/scalar; the random signal is a parameter, `println!` is left out |
| Bench.v | benches/bench_dht.rs: what every benchmark constructs and processes |
| Borrow.v | the butterfly kernels of src/scalar/butterflies.rs again, as sequences of loads and stores |
| Radix4Fix.v | Radix4 with the one expression of prepare_radix4_reversed changed (not in the source; C73) |

### Specification files (independent of the model's helpers)

| file | content |
|---|---|
| Spec.v | the DHT over the reals, `dht_at x k = sum_j x[j] cas(2 pi j k / n)`, and the exact-real number type |
| Api.v | `transforms d f`: what the trait documents about the two processing methods; `assembled`: the instances users can build; `library` |
| NumSpec.v | primes, generators |
| ConstSpec.v | the DHT with some terms scaled by a wrong constant |
| FloatSpec.v | number types that round, error bounds, composition trees as syntax |
| ParamSpec.v | two runs compared: same ending, relations the arithmetic respects, absorbing values, sign of zero |
| NewSpec.v | how many bytes a chunk of each part of a composition takes; isize::MAX and Rader lengths of each target |
| TestSpec.v | what the random signals of the tests are, when a composition is accurate enough for the tests, instances that only insist on sizes, two wrong programs |
| IeeeSpec.v | the accuracy required of the platform's cos and sin, the parameters of binary32 and binary64 |
| WordSpec.v | instances on which no call returns; instances whose calls return nothing wrong |
| RmsSpec.v | Euclidean norms and errors, the towers of powers of two |
| RoundSpec.v, ConvSpec.v | integers through two transforms; integer convolution by three |
| StraightSpec.v, CostSpec.v | straight-line programs; their operation counts and critical paths |
| BorrowSpec.v | Stacked Borrows and Tree Borrows for one memory cell |
| SpectrumSpec.v | the Fourier transform, rotations |
| ProfileSpec.v | agreement of a debug and a release build |
| PlanSpec.v, KeepSpec.v | compositions without DhtNaive; compositions that leave the input of out-of-place calls alone |

### Property files (theorems, examples and `Print Assumptions`; nothing else)

PropsExact.v (C01-C12, C21-C25), PropsContract.v (C13-C16, C19, C20, C26, C27, C35-C37), PropsMath.v (C28-C31),
PropsSafety.v (C17, C18), PropsConst.v (C32, C33), PropsSame.v (C38), PropsFloat.v (C34, C39-C45), PropsParam.v (C46-C50), PropsNew.v (C51, C52), PropsDebug.v (C53, C54), PropsProc.v (C55-C57), PropsTest.v (C58-C61), PropsBench.v (C62, C63), PropsRms.v (C64), PropsStraight.v (C65, C66), PropsRound.v (C67), PropsSpectrum.v (C68), PropsProfile.v (C69), PropsPlan.v (C70), PropsKeep.v (C71), PropsCost.v (C72), PropsRepair.v (C73), PropsBorrow.v (C74), PropsStable.v (C75), PropsConv.v (C76), PropsWord.v (C77), PropsCross.v (C78).
Every other file contains proofs.

## 2. Trusted base

1. Coq's kernel (8.16.1). No kernel check is switched off. `vm_compute` is used.
2. The axioms `Print Assumptions` lists; section 5 gives them for each theorem. They all belong to the standard library:
   `sig_forall_dec`, `sig_not_dec` (ClassicalDedekindReals), `functional_extensionality_dep`, `classic`.
   The theorems under "no axioms" are closed under the global context. Libraries used: the standard library and Flocq.
3. That the model says what the Rust code does. Deliberate simplifications:
   * Dht objects are stateless functions with a fixed length and fixed scratch sizes. (An implementation with
     interior mutability that returns different lengths over time is not covered.)
   * `usize` is 32 or 64 bits wide (`width`; 16-bit targets are not covered). The code exists in the model three times: Proc.v has every `usize` and `i64` operation of the
     constructors and of the processing functions checked (Debug) or wrapping (Release) and refuses a `Vec` above isize::MAX bytes;
     New.v only those of the constructors; the other model files compute without bounds. C52 and C55 prove the three equal up to refused
     allocations when 4 <= size_of::<T>() and a chunk of each part has at most isize::MAX bytes and, on 32 bits, no
     Rader length overflows its index products (C77: which, and what happens then). Beyond that, and for smaller T,
     only C51 speaks about wrapping.
     The error bounds of C34, C39-C42 assume the eightfold length fits.
   * Allocation does not fail, except for capacity overflow in New.v; `Arc` and trait-object dispatch are ordinary function calls; no stack overflow.
   * An unchecked access outside its slice is `UB` in both profiles. (For `RawSlice::load` and `RawSliceMut::store` a debug build
     would panic at their `debug_assert!` instead; C17 shows that neither happens. C69 is unaffected: a debug build that panics agrees with anything.)
     Rust's aliasing rules are modelled only for the raw slices of the butterflies (C74); the rest of the code uses references that
     the compiler checks.
   * Values of `T` are copied, never dropped, and operations on `T` do not panic.
4. Behaviour of dependencies, taken from their documentation:
   * `transpose::transpose` by its contract (panic if the lengths differ, else the transposition);
   * `strength_reduce::StrengthReducedUsize` as `%` and `/` (its constructor panics on 0);
   * `primal_check::miller_rabin` as an exact primality test on u64;
   * `num_integer::Integer::extended_gcd` by its loop, on i64 with overflow in Proc.v (C56: it never overflows) and on unbounded integers elsewhere;
   * `num_traits::{FromPrimitive, Zero, One}` for f32 and f64: `from_f64`, `from_f32` as the `as` conversion, `zero()` = +0;
   * `rustfft::{FftNum, Length}`: `Length::len`.
5. For C42, C44, C45: Rust's f32/f64 `+ - * /` and `sqrt` are the IEEE 754 operations rounding to nearest even (Flocq's
   BinarySingleNaN: NaN payloads are not distinguished), without fused multiply-add or extended precision; cos and sin are
   a parameter `L : libm` and the theorems assume `accurate L`: finite, and within 2^-52 of the real value on finite angles
   of magnitude at most 16. `C42_library` shows that such a library exists.
   std::f64::consts::PI is entered as its f64 value.
6. For C58-C60: `random_real_signal` returns as many numbers as asked for, finite and between 0 and 10 (`uniform`; the code draws from
   `Uniform::new(0, 10)`); f32::cos and f32::sin, used by the reference of one test, are within 2^-22 on angles up to 128 (`accurate32`).

## 3. Per property

| id | what is modelled | how it is proved |
|---|---|---|
| C01 | DhtNaive over reals | loop invariants; the twiddle index is j*k mod n |
| C02 | all nine butterflies | symbolic execution on explicit lists + trig identities |
| C03 | MixedRadix | nested loop invariant for apply_twiddles; decimation in time; pairing of rows r, W-r |
| C04-C08 | MixedRadixNxn | column loop invariant, same identity |
| C09 | SplitRadix | decimation in time into half + two quarters |
| C10 | Radix4, every power of two | `_partial`: right up to 64; `_refuted`: wrong from 128 on, for every length; `C10_radix4_computes`: what it computes instead |
| C11 | RadersAlgorithm, primes 3..2^32 | reordering by a primitive root, convolution theorem |
| C12 | the inductive set of instances | induction over the constructors |
| C13-C15 | all, lawless T | both methods equal map-over-chunks of one function (`transforms`) |
| C16 | all; false for Butterfly1 | case analysis on lengths; `C16_refuted` for Butterfly1 in place |
| C17 | all, with arbitrary inner instances that preserve lengths | logical relation, no `UB` |
| C18 | the same | no `Hang` |
| C19 | MixedRadix, Rader | closure of the contract |
| C20 | Nxn, SplitRadix | false; `C20_exact`, `C20_exact_split` give the exact condition on the inner instance |
| C21-C25 | DHT over reals + every exact instance | orthogonality of cas |
| C26, C27 | constructors | case analysis / induction; Rader at p = 2 refuted |
| C28-C31 | math_utils on u64 with overflow and f32 sqrt (Flocq) | number theory from the standard library; `_refuted` above the bounds |
| C32, C33 | real instance with arbitrary root-half constant | impulse witness / exact characterisation and bound |
| C34, C39-C41, C43 | any rounding number type | running error: every intermediate value carries (factor, magnitude, exact value) |
| C42, C44, C45 | IEEE binary32/binary64 (Flocq) | Flocq's correctness theorems for each operation |
| C35, C36 | boilerplates, chunk iterators | case analysis; `_refuted` for the zipped iterator |
| C37 | Rader's index products | bound (p-1)(p-1) < 2^64 |
| C38 | 3xn/5xn/6xn against MixedRadix, Radix4 against butterflies and 4xn | same sequence of operations, lawless T |
| C46-C50 | every function of the model, lawless T; IEEE binary32/binary64 for C47-C49 | binary parametricity of the whole model (ParamModel.v), by one relation on constants and one on data |
| C51, C52 | constructors with machine arithmetic (New.v), lawless T of `size` bytes | allocation bounds limit the inner length, so products cannot wrap (NewProof.v); table-by-table equality with the unbounded constructors, induction over trees (NewAgree.v, NewTree.v). C51 is false for SplitRadix in Release over arbitrary instances: `C51_split_refuted` |
| C53, C54 | primitive_root and RadersAlgorithm::new with overflow checks; whole compositions through New.v, Ieee.v | squaring 2 six times overflows before the first reduction, and 2 is the first base and (p-1)/2 the first exponent tried (RootDebug.v); C54 joins C42, C52 and C53 |
| C55-C57 | processing functions with machine arithmetic, extended Euclid on i64 (Proc.v) | every index is below a slice length or a checked product, so no operation leaves the word (ProcProof.v); where an index may underflow first, both the wrapped and the panicking run end in Panic; the coefficients of Euclid's algorithm stay below the larger argument. C57 joins C12, C17, C42, C53 and C55 |
| C58-C60 | the test helpers and all unit tests, IEEE binary32/binary64 | C58: the error bounds of C42 against the tolerance of the comparison, by computation over the sizes tried; C59: each rounding of the comparison shrinks a sum of non-negative numbers by at most 1 - u; C60: the runs of the wrong programs coincide with those of the right ones on what the helper tries |
| C61 | MixedRadix over instances that compute anything | lengths only, through both methods |
| C62 | every algorithm over instances that compute anything | lengths only; the scratch each algorithm hands down covers what a modest instance asks for (Oblige.v) |
| C63 | the benchmarks (Bench.v), lawless T; the instances they build, over R | the recursive constructors build library compositions of power lengths, by induction on the recursion (BenchProof.v); then C62 and C12 |
| C64 | rounded arithmetic, composition trees | the exact column stage multiplies distances by sqrt width, because rows are onto and both the rows and the whole transform satisfy Parseval's identity (RmsProof.v); each rounded stage errs by a fraction of its input's length (RmsCols.v, RmsSplit.v); inside Rader's algorithm the products of the exact table have operator norm sqrt p / (p - 1), again by Parseval's identity for both lengths, and the table itself errs by the inner instance's ratio (RmsRader.v); induction over the tree (RmsTree.v) |
| C65 | composition trees over every T at once | the code is run on symbolic expressions; parametricity (C50) relates this run to the run over any other type, with "evaluates to" as the relation, and to itself with "is linear" (Straight.v) |
| C66 | IEEE binary32/binary64 | the expressions of C65, by induction: rounding commutes with powers of two away from underflow, and sums do not underflow (Straight.v) |
| C67 | rounded arithmetic; f32, f64 | C64 for two transforms; one component is at most the distance |
| C68 | exact real arithmetic; rounded arithmetic | [fourier_re], [fourier_im], [rotate] in SpectrumSpec.v; even and odd part of cas, addition formulas, triangle inequality |
| C69 | Proc.v: all integer operations checked or wrapping | [agree] in ProfileSpec.v; every construct of the model preserves it, by induction over loops and over the composition (ProfileProof.v, ProfileTree.v) |
| C70 | compositions ([tree]) of all constructors | strong induction on n: MixedRadix over a prime factor and its cofactor, RadersAlgorithm over p - 1; the converse by induction over the composition with C53 (PropsPlanProof.v); [naive_free], [smooth] in PlanSpec.v |
| C71 | macros (Trait.v), butterflies on raw slices, Radix4, kxn | the chunk loop hands back what its closure hands back; counterexamples over the integers by computation (KeepSpec.v, PropsKeepProof.v) |
| C72 | the straight-line programs of C65 | the code runs on expressions; closed sets of subexpressions are composed algorithm by algorithm, kernels by a checked pattern; equal subexpressions count once, so this bounds the work of a run that computes each of them once, not the instructions the compiler emits (CostSpec.v, Cost.v, CostTree.v, PropsCostProof.v) |
| C73 | Radix4.v, and Radix4Fix.v: the same with one expression changed (not code of the repository) | the recursion of the reordering, base and cross layers as in C10; injectivity of the reordering (Radix4FixProof.v) |
| C74 | the butterfly kernels once more, as sequences of loads and stores (Borrow.v); Stacked Borrows and Tree Borrows for one cell (BorrowSpec.v) | `run` of the programs equals the kernels of Butterflies.v by computation; the borrow states are followed through the events (PropsBorrowProof.v) |
| C75 | instances with a relative error (RmsSpec.v) | the exact inverse of the computed output is the witness; the transform is an isometry up to sqrt n (PropsStableProof.v) |
| C76 | two transforms, a combination of the spectra by the caller (ConvSpec.v), a third transform | convolution theorem (C25), rounding of one entry, Euclidean norms throughout (PropsConvProof.v) |
| C77 | constructors and processing functions with `usize` of either width (New.v, Proc.v) | C55 on both widths; otherwise the indices are powers of the root, all of 1..p-1 occur, so an overflowing product is reached (WordProof.v); at 96847 and 67679 the wrapped index sequence is computed; at 67679 it misses index 2, and DhtNaive's copy of its result in the scratch shows through (WordSilent.v); release builds over the reals (WordCas.v, WordRelease.v): an instance that transforms every unit vector determines both index sequences, so they are the powers of root and inverse and no product wraps; where they do not fit some unit vector fails (C77_faulty); compositions in debug builds (WordTree.v): every processing function calls its inner instances on every path, so an instance on which no call returns makes the whole composition one, and RadersAlgorithm::new panics on it. The alternative "every call panics" of C77_debug, C77_large, C77_tree and C77_same needs a prime whose inverse root fits while its root does not, so a smallest primitive root above 1625 (not proved, and no such prime is exhibited); otherwise the constructor already panics |
| C78 | constructors and processing functions of a 32-bit debug build beside those of a 64-bit build (New.v, Proc.v) | the relation of C69 with the width of `usize` as a second parameter: a checked operation on the narrower type panics or has the wider type's result (ProfileProof.v, ProfileTree.v) |

Theorems named `_partial` prove the property under the restriction written above them; `_refuted` theorems prove its negation
for the faithful model with a witness. Properties with a `_refuted` theorem also have theorems for the part that holds.

## 4. What the proofs found in the code

* **Radix4 is wrong for every length >= 128** (radix4.rs:348, :357: prepare_radix4_reversed reverses the quarters but not their order).
  Up to 64 it is right. `C10_radix4_computes` states the transform it does compute; `C73_repair` shows that `(3 - i) * (size / 4)` in place of
  `i * (size / 4)` repairs it at every length. The unit tests stop at 64.
* **Every in-place butterfly call violates Stacked Borrows** (butterflies.rs:16, :21): the `&mut` taken for RawSliceMut::new invalidates
  the pointer RawSlice::new took before. Tree Borrows allows it, because all loads come first (C74).
* **Butterfly1 in place never panics**, whatever the buffer and scratch (documented panics missing, butterflies.rs:101-117).
* **2xn..6xn and SplitRadix pass too little scratch** to inner instances that advertise unusual requirements; they work exactly when
  the inner in-place scratch is at most the outer length and the out-of-place scratch is 0 (SplitRadix: only the quarter
  instance's). All instances the library itself builds with non-zero length satisfy this.
* **RadersAlgorithm::new panics for length 2**, although 2 is prime, and for primes above 2^32 (overflow in Debug; in Release it may
  use a non-root).
* **sqrt(1/2) is computed in f32 for every T** (mixed_radix.rs:55, radix3.rs:33, radix5.rs:33, radix6.rs:34), so in f64 these algorithms
  lose half of the digits: error > 2^-26 sum|x| on some input at every size (C32), also in IEEE arithmetic (C45).
* `distinct_prime_factors(0)` does not terminate (not reachable through the public API); it returns a composite for
  16777259^2 because of the f32 square root; `modular_exponent(_, 0, 1)` returns 1.
* `iter_chunks_zipped` has the same condition twice (array_utils.rs), so a longer second buffer is never reported by it; the
  callers' own length check covers this.
* Zero-length composites can report positive scratch sizes; processing on them returns at once.
* SplitRadix::new in a release build multiplies `quarter_len * 4` without a check and allocates only in proportion to the wrapped
  product: user instances that report lengths 2^62 + 1 and 2^63 + 2 give a SplitRadix of length 4 (`C51_split_refuted`). A debug build panics.
  With library instances only, and T of at least 4 bytes, this cannot happen (`C51_trees`).
* A debug build panics in RadersAlgorithm::new at every prime between 2^32 and 2^64 (`C53_root`); so whatever it constructs is right.

* The test helper check_dht_algorithm prefills the output buffer of the out-of-place test with the expected output, so an out-of-place
  method that writes nothing passes (`C60_output_f32`, `C60_output_f64`); it tries one chunk only, so an instance that ignores all further
  chunks passes (`C60_chunks`); it rejects every instance of length 0 (`C60_zero`); its tolerance, a mean error of 0.1, hides the f32
  constant of C45 (`C60_precision`). Within these limits a pass is meaningful: `C59_f32`, `C59_f64`.
* benches/bench_dht.rs: make_splitradix returns Butterfly16 for lengths below 16, so bench_splitradix panics there (`C63_short`);
  bench_4xn_radix4 does not check the length, and at a length that is not a power of two times a shorter transform (`C63_silent`).
  The file uses neither. bench_direct_radix4 and raders_power2 time Radix4 at lengths where it does not compute the DHT (`C10_radix4_refuted`).
* **RadersAlgorithm overflows on 32-bit targets**, first at 67679 and always from 2^22 on (raders_algorithm.rs:58, :111, :157, :175, :225: the products are computed in
  `usize`, though their factors come from u64 arithmetic). Debug builds panic in `new` or in every call; in release builds the
  indices wrap: at 67679 (the first prime concerned) over DhtNaive the results are wrong without a panic; at 96847 every call panics (C77). `(index as u64 * root as u64) % len as u64` would do.

## 5. Print Assumptions, per theorem

**No axioms** (closed under the global context): C63_noop, C74_faithful, C74_tree, C74_tree_exactly, C74_stacked, C74_separate, C74_repair, C16_butterfly1, C19_mixed_radix, C20_refuted, C20_exact, C20_exact_split, C20_modest_partial, C27_radix4, C27_split_radix, C36_iter_chunks, C36_refuted, C36_zipped_partial, C36_zipped_reports, C37_product, C72_splits, C72_fours, C71_kxn, C29_refuted, C29_modular_exponent_partial, C51_split_debug, C51_split_refuted, C52_fit64, C56_euclid, C38_3xn, C38_5xn, C38_6xn, C38_radix4_base, C38_radix4_layer, C61_mixed, C61_test.

**functional_extensionality_dep, sig_forall_dec, sig_not_dec**: C33_mixed_radix, C33_3xn, C33_5xn, C33_6xn, C33_bound, C01_naive, C01_process, C02_butterflies, C03_mixed_radix, C04_2xn, C05_3xn, C06_4xn, C07_5xn, C08_6xn, C09_split_radix, C10_radix4_upto_64_partial, C10_radix4_refuted, C10_radix4_computes, C21_involution, C22_linear, C23_parseval, C24_reversed_tail, C24_reversed, C25_convolution, C34_naive, C39_butterflies, C40_mixed_radix, C40_2xn, C40_3xn, C40_4xn, C40_5xn, C40_6xn, C40_split_radix, C40_radix4, C43_round_trip, C73_repair, C73_permutation, C73_keeps, C73_workaround, C73_right, C64_relative, C64_energy, C64_twice, C68_fourier, C68_rotate, C68_rounded, C75_backward, C75_continuous, C75_linear.

**classic, functional_extensionality_dep, sig_forall_dec, sig_not_dec**: C62_assembled, C62_raders, C63_raders_noop, C63_raders_power2, C63_radix4, C63_lengths, C63_butterflies, C63_made, C63_short, C63_silent, C32_mixed_radix_refuted, C32_3xn_refuted, C32_5xn_refuted, C32_6xn_refuted, C32_f32_partial, C13_same_result, C14_scratch_inplace, C14_scratch_outofplace, C15_chunkwise, C16_refuted, C16_panics_partial, C19_raders, C26_lengths, C26_sizes, C27_refuted, C27_large_refuted, C27_raders_partial, C35_zero_length, C37_no_overflow, C76_any, C76_fours_f32, C76_fours_f64, C76_splits_f32, C76_splits_f64, C76_primes_f64, C72_trees, C72_leaves, C72_fast, C78_constructors, C78_calls, C78_exact, C78_f32, C78_f64, C53_root, C53_rader, C53_nesting, C54_f32, C54_f64, C11_raders, C12_nesting, C40_raders, C41_trees, C41_covers, C41_length, C41_linear, C42_f32_rounded, C42_f64_rounded, C42_f32, C42_f64, C44_f32, C44_f64, C45_f64_mixed_radix_refuted, C71_trees, C71_flies, C71_others, C28_primitive_root, C28_root_and_inverse, C30_refuted, C30_factors_partial, C30_stops, C30_zero_hangs, C31_refuted, C51_constructors, C51_trees, C52_agree, C52_complete, C46_trees, C46_assembled, C47_spoils, C47_f32, C47_f64, C48_f32, C48_f64, C49_f32, C49_f64, C50_parametric, C70_every, C70_run, C70_only, C70_exactly, C55_constructors, C55_trees, C55_complete, C56_roots, C57_safe, C57_exact, C57_f32, C57_f64, C69_math, C69_constructors, C69_calls, C69_exact, C69_f32, C69_f64, C64_trees, C64_rader, C64_fours_f32, C64_fours_f64, C64_splits_f32, C64_splits_f64, C64_primes_f32, C64_primes_f64, C67_any, C67_fours_f32, C67_fours_f64, C67_splits_f32, C67_splits_f64, C67_primes_f32, C67_primes_f64, C17_memory_safe, C18_terminates, C18_process, C65_exists, C65_unique, C65_read_off, C66_f32, C66_f64, C58_f32, C58_f64, C58_scalar, C58_butterflies, C58_naive, C59_compare_f32, C59_compare_f64, C59_f32, C59_f64, C60_output_f32, C60_output_f64, C60_chunks, C60_zero, C60_precision, C77_targets, C77_range, C77_decide, C77_first, C77_exactly, C77_every, C77_faulty, C77_new, C77_debug, C77_tree, C77_same, C77_large, C77_release, C77_differ, C77_silent.

## 6. Mutation tests

`seeded/LOG.jsonl` records wrong programs tried against the theorems, in scratch copies: the definition edited, the edit, the claim it breaks,
the theorems whose proofs no longer go through (those that use a lemma whose proof script breaks on the edited program), and what was tightened.
The edit makes the theorems of the property named in `claim` false (or, for `_refuted` ones, repairs the program); others in the list may merely
share a broken lemma. Entries with an `outcome` are inconclusive: a file did not
finish compiling on the edited program or an edit was ill-typed; they list only the theorems seen to fail before that point. Runs repeated later
to a conclusion appear once.
