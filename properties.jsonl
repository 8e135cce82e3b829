{"id": "C01", "title": "DhtNaive computes the DHT", "statement": "For every length n and every buffer whose length is a positive multiple of n, DhtNaive::new(n).process / process_with_scratch / process_outofplace_with_scratch replace every n-element chunk x by the vector X with X[k] = sum_{j<n} x[j]*(cos(2*pi*j*k/n)+sin(2*pi*j*k/n)) (numbers read as exact reals).", "quantifier": "all lengths n >= 1, all chunk counts, all inputs, all scratch contents", "why_tests_cant": "tests sample lengths 1..19 with one random signal and a loose tolerance", "anchors": ["src/scalar/dht_naive.rs: DhtNaive::new, perform_dht_out_of_place", "src/twiddles.rs: compute_dht_twiddle", "src/macros.rs: boilerplate_dht_oop"]}
{"id": "C02", "title": "Every butterfly computes the DHT of its size", "statement": "Butterfly1,2,3,4,5,6,8,9,16 compute the exact DHT of each chunk of their size, both in place (input and output aliasing) and out of place.", "quantifier": "all real inputs, all chunk counts, aliased and non-aliased buffers", "why_tests_cant": "unit tests check one random vector per size to tolerance 0.1; Butterfly9 and 16 rely on trigonometric identities", "anchors": ["src/scalar/butterflies.rs: Butterfly1..Butterfly16::perform_dht_contiguous, boilerplate_fft_butterfly"]}
{"id": "C03", "title": "MixedRadix computes the DHT of length width*height", "statement": "If width_dht and height_dht compute the DHTs of their lengths, MixedRadix::new(width_dht, height_dht) computes the DHT of length width*height on every chunk, through both processing methods.", "quantifier": "all widths and heights (even, odd, 1), all contract-abiding inner DHTs, all inputs", "why_tests_cant": "tests cover 1..8 x 1..8 over naive inner DHTs only", "anchors": ["src/scalar/mixed_radix.rs: MixedRadix::new, apply_twiddles, perform_dht_inplace, perform_dht_out_of_place"]}
{"id": "C04", "title": "MixedRadix2xn computes the DHT of length 2*height", "statement": "If height_dht computes the DHT of its length (with in-place scratch <= its length and no out-of-place scratch), MixedRadix2xn::new(height_dht) computes the DHT of length 2*height on every chunk, in place and out of place.", "quantifier": "all heights, all inputs, all inner DHTs with that scratch bound", "why_tests_cant": "tests stop at height 6 with a naive inner DHT", "anchors": ["src/scalar/radix2.rs: MixedRadix2xn"]}
{"id": "C05", "title": "MixedRadix3xn computes the DHT of length 3*height", "statement": "As C04 for MixedRadix3xn and length 3*height.", "quantifier": "all heights, all inputs, all inner DHTs with that scratch bound", "why_tests_cant": "tests stop at height 6 with a naive inner DHT", "anchors": ["src/scalar/radix3.rs: MixedRadix3xn"]}
{"id": "C06", "title": "MixedRadix4xn computes the DHT of length 4*height", "statement": "As C04 for MixedRadix4xn and length 4*height.", "quantifier": "all heights, all inputs, all inner DHTs with that scratch bound", "why_tests_cant": "tests stop at height 6 with a naive inner DHT", "anchors": ["src/scalar/radix4.rs: MixedRadix4xn"]}
{"id": "C07", "title": "MixedRadix5xn computes the DHT of length 5*height", "statement": "As C04 for MixedRadix5xn and length 5*height.", "quantifier": "all heights, all inputs, all inner DHTs with that scratch bound", "why_tests_cant": "tests stop at height 6 with a naive inner DHT", "anchors": ["src/scalar/radix5.rs: MixedRadix5xn"]}
{"id": "C08", "title": "MixedRadix6xn computes the DHT of length 6*height", "statement": "As C04 for MixedRadix6xn and length 6*height.", "quantifier": "all heights, all inputs, all inner DHTs with that scratch bound", "why_tests_cant": "tests stop at height 6 with a naive inner DHT", "anchors": ["src/scalar/radix6.rs: MixedRadix6xn"]}
{"id": "C09", "title": "SplitRadix computes the DHT of length 4*quarter", "statement": "If quarter_dht and half_dht compute the DHTs of lengths q and 2q (no extra scratch), SplitRadix::new(quarter_dht, half_dht) computes the DHT of length 4q on every chunk, in place and out of place.", "quantifier": "all q, all inputs, all such inner DHTs", "why_tests_cant": "tests use naive inner DHTs, q < 30, one random vector each", "anchors": ["src/scalar/split_radix.rs: SplitRadix"]}
{"id": "C10", "title": "Radix4 computes the DHT for every power of two", "statement": "Radix4::new(len) computes the DHT of length len on every chunk for every power of two len.", "quantifier": "all powers of two, all inputs", "why_tests_cant": "tests only use len = 4..64, which has at most one cross-FFT layer; the layered index permutation for len >= 128 is never exercised", "anchors": ["src/scalar/radix4.rs: Radix4::new, perform_dht_out_of_place, prepare_radix4, prepare_radix4_reversed, butterfly_4"]}
{"id": "C11", "title": "RadersAlgorithm computes the DHT of every odd prime length", "statement": "If inner_dht computes the DHT of length p-1 for an odd prime p, RadersAlgorithm::new(inner_dht) succeeds and computes the DHT of length p on every chunk, in place and out of place.", "quantifier": "all odd primes p (p <= 2^32), all inner DHTs, all inputs", "why_tests_cant": "tests run p = 3, 5, 7 only; correctness rests on primitive roots existing and being found", "anchors": ["src/scalar/raders_algorithm.rs: RadersAlgorithm", "src/math_utils.rs: primitive_root"]}
{"id": "C12", "title": "Arbitrary nestings of the algorithms compute the DHT", "statement": "Any DHT instance assembled from the public constructors by arbitrary finite nesting (Radix4 only up to length 64) computes the DHT of its reported length on every chunk, never panicking on correctly sized buffers.", "quantifier": "all finite composition trees of constructors, all inputs", "why_tests_cant": "infinitely many compositions; unit tests only nest one level over DhtNaive", "anchors": ["src/scalar/mod.rs", "src/lib.rs: Dht"]}
{"id": "C13", "title": "In-place and out-of-place results are bit-for-bit identical", "statement": "For every instance of nonzero length built from the public constructors, process_with_scratch and process_outofplace_with_scratch leave identical element values in the result buffer, for any number type whatsoever (no algebraic law of + - * is needed, so this covers f32 and f64 rounding).", "quantifier": "all instances, all number types and operations, all inputs and scratch contents", "why_tests_cant": "tests compare up to a tolerance and cannot range over number types", "anchors": ["src/macros.rs", "src/lib.rs: Dht::process_with_scratch, Dht::process_outofplace_with_scratch"]}
{"id": "C14", "title": "Scratch and output contents never influence the result; surplus scratch is untouched", "statement": "For every instance of nonzero length built from the public constructors the result depends only on the input elements: not on what scratch (or, out of place, the output buffer) held before; and elements of scratch beyond the documented required length are unchanged afterwards. Buffers keep their lengths.", "quantifier": "all instances, all number types, all scratch contents and lengths", "why_tests_cant": "tests use one dirty value (100.0) and exactly sized scratch", "anchors": ["src/macros.rs", "src/lib.rs: Dht"]}
{"id": "C15", "title": "Chunks are processed independently", "statement": "For every instance of nonzero length built from the public constructors, processing a buffer of m*len elements yields exactly the concatenation of processing its m chunks separately.", "quantifier": "all instances, all number types, all m >= 1, all inputs", "why_tests_cant": "tests use n = 1 chunk for everything except DhtNaive", "anchors": ["src/array_utils.rs: iter_chunks, iter_chunks_zipped", "src/macros.rs"]}
{"id": "C16", "title": "Documented panics happen exactly when documented", "statement": "For an instance of nonzero length built from the public constructors, process_with_scratch panics exactly when buffer.len() < len, buffer.len() % len != 0, or scratch.len() < get_inplace_scratch_len(); process_outofplace_with_scratch panics exactly when input/output lengths differ or the corresponding conditions hold.", "quantifier": "all buffer, output and scratch lengths, all instances", "why_tests_cant": "finitely many length combinations can be tested; the error helpers are only reached on bad lengths", "anchors": ["src/lib.rs: dht_error_inplace, dht_error_outofplace, Dht docs", "src/macros.rs", "src/scalar/butterflies.rs: Butterfly1"]}
{"id": "C17", "title": "No out-of-bounds memory access", "statement": "No call of process_with_scratch or process_outofplace_with_scratch on any instance built by the public constructors performs an unchecked out-of-bounds read or write, whatever the buffer lengths and contents, and even if the user-supplied inner Dht implementations compute garbage or panic (they can only preserve slice lengths).", "quantifier": "all instances, all inner Dht implementations written in safe Rust, all buffer and scratch lengths and contents", "why_tests_cant": "absence of UB over all lengths and all user-supplied trait implementations cannot be sampled", "anchors": ["src/array_utils.rs: RawSlice::load, RawSliceMut::store, transpose_half_rev_out", "src/scalar/split_radix.rs: apply_twiddles", "src/scalar/radix4.rs: prepare_radix4"]}
{"id": "C18", "title": "Processing terminates", "statement": "No call of process, process_with_scratch or process_outofplace_with_scratch on an instance built from the public constructors loops forever (in particular zero-length instances return immediately), for any buffer lengths.", "quantifier": "all instances including zero-length ones, all buffers", "why_tests_cant": "termination for every size is not testable", "anchors": ["src/array_utils.rs: iter_chunks", "src/macros.rs", "src/scalar/radix4.rs"]}
{"id": "C19", "title": "Composite algorithms supply enough scratch to any inner DHT", "statement": "If inner DHTs obey the Dht contract with arbitrary scratch requirements, MixedRadix and RadersAlgorithm built on them, given exactly get_inplace_scratch_len()/get_outofplace_scratch_len() scratch, never make an inner DHT panic for lack of scratch and obey the contract themselves.", "quantifier": "all contract-abiding inner DHTs with arbitrary lengths and scratch requirements", "why_tests_cant": "tests use three scratch sizes for MixedRadix and none for Rader", "anchors": ["src/scalar/mixed_radix.rs: new", "src/scalar/raders_algorithm.rs: new"]}
{"id": "C20", "title": "MixedRadixNxn and SplitRadix supply enough scratch to any inner DHT", "statement": "The same guarantee as C19 for MixedRadix2xn..6xn and SplitRadix.", "quantifier": "all contract-abiding inner DHTs with arbitrary scratch requirements", "why_tests_cant": "no test uses an inner DHT with large scratch here", "anchors": ["src/scalar/radix2.rs", "src/scalar/radix3.rs", "src/scalar/radix4.rs: MixedRadix4xn", "src/scalar/radix5.rs", "src/scalar/radix6.rs", "src/scalar/split_radix.rs"]}
{"id": "C21", "title": "Applying a DHT twice multiplies by the length", "statement": "For every instance that computes the DHT, process applied twice returns every chunk multiplied by len (the DHT is its own inverse up to scale).", "quantifier": "all instances, all inputs", "why_tests_cant": "universal over inputs and sizes", "anchors": ["src/lib.rs: Dht::process"]}
{"id": "C22", "title": "Linearity", "statement": "For every correct instance process(a*x + b*y) = a*process(x) + b*process(y), chunkwise.", "quantifier": "all instances, inputs, real scalars", "why_tests_cant": "universal over inputs", "anchors": ["src/lib.rs: Dht::process"]}
{"id": "C23", "title": "Energy is preserved (Parseval)", "statement": "For every correct instance sum_k X[k]^2 = len * sum_j x[j]^2 on every chunk, and X[0] = sum_j x[j].", "quantifier": "all instances, all inputs", "why_tests_cant": "universal over inputs", "anchors": ["src/lib.rs: Dht::process"]}
{"id": "C24", "title": "Reversal symmetries", "statement": "Reversing everything but the first element of both input and output leaves the transform unchanged; reversing the whole input gives cos(2*pi*k/n)*X[-k] - sin(2*pi*k/n)*X[k], the fact behind the half-reversed transposes of the mixed-radix algorithms.", "quantifier": "all lengths, all inputs", "why_tests_cant": "tests sample len < 20", "anchors": ["src/scalar/radix5.rs: test_double_reversal_property, test_reversal_property"]}
{"id": "C25", "title": "Circular convolution via the DHT", "statement": "With X, Y the transforms of x, y, the transform of their circular convolution is X[k]*Ye[k] + X[-k]*Yo[k]; so process can be used for fast convolution as Rader's algorithm does.", "quantifier": "all lengths and inputs", "why_tests_cant": "universal over inputs", "anchors": ["src/scalar/raders_algorithm.rs: perform_dht_inplace"]}
{"id": "C26", "title": "Reported length and scratch sizes", "statement": "len() of a composite equals the documented function of the inner lengths; for every nonzero-length instance built only from the public constructors get_outofplace_scratch_len() = 0 and get_inplace_scratch_len() <= len().", "quantifier": "all finite composition trees", "why_tests_cant": "infinitely many compositions", "anchors": ["src/lib.rs: Dht docs", "src/scalar/mixed_radix.rs: new"]}
{"id": "C27", "title": "Constructors panic exactly on invalid arguments", "statement": "Radix4::new panics iff len is not a power of two; SplitRadix::new panics iff half.len() != 2*quarter.len(); RadersAlgorithm::new panics iff inner.len()+1 is not prime; the other constructors never panic.", "quantifier": "all arguments", "why_tests_cant": "universal over arguments; Rader is only tested from 3 up", "anchors": ["src/scalar/radix4.rs: Radix4::new", "src/scalar/split_radix.rs: new", "src/scalar/raders_algorithm.rs: new"]}
{"id": "C28", "title": "A primitive root is found for every prime", "statement": "For every prime 3 <= p <= 2^32 the root search used by RadersAlgorithm::new terminates without overflow and returns a generator of the multiplicative group mod p.", "quantifier": "all primes in range", "why_tests_cant": "2*10^8 primes, existence is a theorem of number theory", "anchors": ["src/math_utils.rs: primitive_root, modular_exponent, distinct_prime_factors"]}
{"id": "C29", "title": "Modular exponentiation is exact without overflow", "statement": "The modular power used in the root search equals base^exponent mod modulo and no intermediate product overflows u64 whenever base < modulo <= 2^32.", "quantifier": "all base, exponent, modulo", "why_tests_cant": "2^160 argument triples", "anchors": ["src/math_utils.rs: modular_exponent"]}
{"id": "C30", "title": "Distinct prime factorisation is exact", "statement": "The factorisation used in the root search returns exactly the prime divisors of n, each once, for every n >= 1 (the loop bound goes through an f32 square root).", "quantifier": "all u64 n >= 1", "why_tests_cant": "f32 rounding of the loop limit only fails for huge n", "anchors": ["src/math_utils.rs: distinct_prime_factors"]}
{"id": "C31", "title": "Root search works for all u64 primes", "statement": "The claim of C28 for primes above 2^32.", "quantifier": "all u64 primes", "why_tests_cant": "witnesses are huge", "anchors": ["src/math_utils.rs"]}
{"id": "C32", "title": "Twiddle scaling constant is exact for every number type", "statement": "MixedRadix, MixedRadix3xn, 5xn and 6xn compute the DHT to the precision of T for T = f64 as well as f32, i.e. the sqrt(1/2) factor baked into their twiddles carries no error beyond T's own rounding.", "quantifier": "all inputs", "why_tests_cant": "tests compare with tolerance 0.1 so an error of 1e-8 is invisible", "anchors": ["src/scalar/mixed_radix.rs: root2", "src/scalar/radix3.rs: root2", "src/scalar/radix5.rs: root2", "src/scalar/radix6.rs: root2"]}
{"id": "C33", "title": "Error caused by the single-precision constant is bounded", "statement": "Whatever value c the library uses for sqrt(1/2), one level of MixedRadix/3xn/5xn/6xn over exact inner DHTs deviates from the DHT by at most |c*sqrt 2 - 1| * 2*sqrt 2 * sum|x[j]| in every output.", "quantifier": "all inputs, all constants c", "why_tests_cant": "universal over inputs", "anchors": ["src/scalar/mixed_radix.rs", "src/scalar/radix3.rs", "src/scalar/radix5.rs", "src/scalar/radix6.rs"]}
{"id": "C34", "title": "Floating-point error of the naive transform is bounded", "statement": "For every number type whose +, -, * are the exact operations followed by a rounding of relative error u (with gradual underflow and overflow) and whose cos/sin have absolute error tau, every output of DhtNaive of length n is finite and deviates from the exact DHT by at most ((1+u)^(n+2)(1+tau) - 1) * 2 * sum_j max(|x[j]|, smallest normal), on every finite input for which (1+u)^(n+2)(1+tau) * 2 * sum_j max(|x[j]|, smallest normal) stays below the overflow threshold.", "quantifier": "all lengths below 2^64, all finite non-overflowing inputs, all roundings in the standard model", "why_tests_cant": "universal over inputs and rounding choices", "anchors": ["src/scalar/dht_naive.rs"]}
{"id": "C35", "title": "Zero-length instances are inert", "statement": "On an instance of length 0 every processing method returns without panicking and without modifying any buffer, for any buffer lengths.", "quantifier": "all zero-length instances, all buffers", "why_tests_cant": "infinitely many instances", "anchors": ["src/macros.rs", "src/scalar/dht_naive.rs"]}
{"id": "C36", "title": "Chunk iteration reports every remainder", "statement": "The chunk-iteration helpers visit each full chunk exactly once, in order, and report an error exactly when some element (of either buffer) was not in a visited chunk.", "quantifier": "all buffer lengths and chunk sizes", "why_tests_cant": "universal over lengths", "anchors": ["src/array_utils.rs: iter_chunks, iter_chunks_zipped"]}
{"id": "C37", "title": "Rader index arithmetic fits in usize", "statement": "While running on an instance of prime length p <= 2^32 no index product computed by RadersAlgorithm overflows a 64-bit usize.", "quantifier": "all primes, all steps", "why_tests_cant": "universal over primes", "anchors": ["src/scalar/raders_algorithm.rs: perform_dht_inplace, perform_dht_out_of_place, new"]}
{"id": "C38", "title": "Specialised algorithms give bit-identical results to the general ones", "statement": "MixedRadix3xn, 5xn and 6xn over an inner instance compute, for every number type, exactly the same element values as MixedRadix over Butterfly3/5/6 and that inner instance; Radix4 of length 1, 2, 4, 8, 16 computes exactly what the butterfly of that length does, and Radix4 of length 32 and 64 exactly what MixedRadix4xn over Butterfly8 and Butterfly16 does.", "quantifier": "all number types, all inner instances with acceptable scratch requirements, all inputs", "why_tests_cant": "tests only compare with a tolerance and never compare two algorithms", "anchors": ["src/scalar/radix3.rs", "src/scalar/radix5.rs", "src/scalar/radix6.rs", "src/scalar/radix4.rs", "src/scalar/mixed_radix.rs"]}
{"id": "C39", "title": "Floating-point error of the butterflies is bounded", "statement": "In the same rounding model each butterfly's outputs are finite and within an explicit number of roundings of the exact DHT: for example Butterfly16 within ((1+u)^6(1+tau) - 1) * 2 * sum max(|x[j]|, smallest normal).", "quantifier": "all finite non-overflowing inputs, all roundings", "why_tests_cant": "universal over inputs and roundings", "anchors": ["src/scalar/butterflies.rs"]}
{"id": "C40", "title": "Floating-point error of the composite algorithms is bounded", "statement": "If the inner instances approximate the DHT with factors phi and gains G, then MixedRadix, 2xn..6xn, SplitRadix, RadersAlgorithm and Radix4 (up to 64) approximate it with an explicit factor: the product (maximum for SplitRadix, cube for Rader) of the inner factors times a fixed number of roundings.", "quantifier": "all inner instances, also user-written ones, all sizes, all finite non-overflowing inputs, all roundings", "why_tests_cant": "universal over instances, inputs and roundings", "anchors": ["src/scalar/mixed_radix.rs", "src/scalar/radix2.rs", "src/scalar/radix3.rs", "src/scalar/radix4.rs", "src/scalar/radix5.rs", "src/scalar/radix6.rs", "src/scalar/split_radix.rs", "src/scalar/raders_algorithm.rs"]}
{"id": "C41", "title": "Floating-point error of every composition tree is bounded", "statement": "Every instance that public constructors can build (Radix4 up to length 64, Rader up to 2^32) approximates the DHT with a factor computed from the shape of the tree: about 2 * (a u + b tau + c rho) with a, b, c counting roundings along the deepest path of the tree, not the input length.", "quantifier": "all trees of any depth, all finite non-overflowing inputs, all roundings", "why_tests_cant": "infinitely many trees", "anchors": ["src/lib.rs", "src/scalar/mod.rs"]}
{"id": "C42", "title": "The bounds hold for f32 and f64", "statement": "f32 and f64, as IEEE 754 binary32 and binary64 with round to nearest even and the code's own angle computation in f64, are instances of the rounding model with u = 2^-24, 2^-53, provided the platform's cos and sin are within 2^-52 on finite angles up to 16; so every composition tree has the explicit bound in f32 and f64 and never produces infinities or NaN from finite non-overflowing inputs.", "quantifier": "all trees, all finite non-overflowing inputs, any accurate libm", "why_tests_cant": "universal over bit patterns", "anchors": ["src/lib.rs: DhtNum for f32, f64", "src/twiddles.rs"]}
{"id": "C43", "title": "Transforming twice returns the input times n, up to rounding", "statement": "For every instance with an error bound, process applied twice to any finite non-overflowing chunk gives n * x[k] up to (phi^2 - 1) * n * G^2 * size x.", "quantifier": "all instances with a bound, all inputs", "why_tests_cant": "universal over inputs and roundings", "anchors": ["src/lib.rs: Dht"]}
{"id": "C44", "title": "Butterflies 1, 2 and 4 are exact on integers", "statement": "In f32 (f64), on integer inputs with sum |x[j]| <= 2^24 (2^53), Butterfly1, Butterfly2 and Butterfly4 return the exact DHT.", "quantifier": "all integer inputs in range", "why_tests_cant": "2^24-sized input space per element", "anchors": ["src/scalar/butterflies.rs: Butterfly1, Butterfly2, Butterfly4"]}
{"id": "C45", "title": "f64 instances are accurate to f64 precision", "statement": "Every correct composition of algorithms at f64 has errors of the order of the f64 unit roundoff.", "quantifier": "all f64 instances", "why_tests_cant": "the test tolerance is far above 2^-26", "anchors": ["src/scalar/mixed_radix.rs:55"]}
{"id": "C46", "title": "Control flow does not depend on the data", "statement": "For every composition of algorithms, whether a call returns, panics or leaves a slice, and the lengths it leaves, depend only on the lengths of the slices: never on the values in them and never on the element type. With user-supplied inner instances this holds whenever it holds for them.", "quantifier": "all compositions, all slices of any lengths and contents, any two element types", "why_tests_cant": "tests see finitely many values; NaN or infinities are never tried", "anchors": ["src/scalar/", "src/macros.rs"]}
{"id": "C47", "title": "A NaN or infinite input spoils the outputs it contributes to", "statement": "For every correct composition, if input j is NaN (not finite) then output 0 and every output k with cas(2 pi jk/n) <> 0 is NaN (not finite); if 8 does not divide n that is every output. No algorithm hides an invalid input.", "quantifier": "all compositions, all inputs, f32 and f64 with any cos and sin, and every absorbing predicate of any type", "why_tests_cant": "tests use finite inputs only", "anchors": ["src/scalar/"]}
{"id": "C48", "title": "Negating the input negates the output exactly", "statement": "At f32 and f64, for every composition, the transform of -x is minus the transform of x, bit for bit except for signs of zeros, including overflow, underflow and NaN.", "quantifier": "all compositions, all inputs", "why_tests_cant": "universal over inputs; no approximation involved", "anchors": ["src/scalar/"]}
{"id": "C49", "title": "The sign of zero inputs does not matter", "statement": "At f32 and f64, inputs that differ only in signs of zeros give outputs that differ only in signs of zeros.", "quantifier": "all compositions, all inputs", "why_tests_cant": "universal over inputs", "anchors": ["src/scalar/"]}
{"id": "C50", "title": "Data are only added, subtracted, negated and multiplied by constants", "statement": "For every composition, any relation between two number types that holds for the constants and is preserved by addition, subtraction, negation and multiplication by constants, is carried from the inputs to the outputs. In particular no algorithm multiplies, compares or branches on data.", "quantifier": "all compositions, all relations, all inputs", "why_tests_cant": "quantifies over relations and types", "anchors": ["src/scalar/"]}
{"id": "C51", "title": "A constructor that returns reports the exact length", "statement": "On 32-bit and 64-bit targets, in debug and release builds, whenever a constructor returns, the instance's len() is the exact mathematical length (width*height, k*inner, 4*quarter, inner+1): usize arithmetic never wraps silently into a wrong length.", "quantifier": "all inner instances, both profiles, all element sizes from 2 bytes (4 for whole compositions)", "why_tests_cant": "lengths near 2^60 cannot be allocated in a test", "anchors": ["src/scalar/split_radix.rs:21-46", "src/scalar/mixed_radix.rs", "src/scalar/radix5.rs:25-81"]}
{"id": "C52", "title": "Machine arithmetic of the constructors builds what unbounded arithmetic builds", "statement": "Whenever one chunk of each part of a composition fits into memory, running the constructors with 32-bit or 64-bit usize arithmetic gives exactly the instance (twiddles, scratch sizes, length) that unbounded arithmetic gives, or panics because a Vec would exceed isize::MAX bytes; below 2^28 or 2^60 bytes it never panics for that reason.", "quantifier": "all compositions (on 32 bits, Rader lengths p with (p-1)*root and (p-1)*inverse below 2^32), both profiles, both widths of usize, all number types of at least 4 bytes", "why_tests_cant": "universal over compositions and sizes", "anchors": ["src/scalar/"]}
{"id": "C53", "title": "Debug builds never construct a wrong RadersAlgorithm", "statement": "With overflow checks on, primitive_root panics for every prime between 2^32 and 2^64, hence every RadersAlgorithm that new returns has a prime length from 3 to 2^32, and every composition a debug build constructs (Radix4 up to 64) computes the DHT, without any bound on Rader lengths.", "quantifier": "all primes below 2^64, all compositions", "why_tests_cant": "instances above 2^32 elements", "anchors": ["src/math_utils.rs:57-73", "src/scalar/raders_algorithm.rs:29-98"]}
{"id": "C54", "title": "From machine constructors to the error of IEEE results", "statement": "For every composition that the constructors of a debug build return at f32 or f64 (32-bit or 64-bit usize arithmetic, capacity limits, Radix4 up to 64), both processing methods compute one function of each chunk, finite and within the stated error of the exact DHT.", "quantifier": "all compositions (on 32 bits, Rader lengths p with (p-1)*root and (p-1)*inverse below 2^32), all finite inputs below the overflow threshold, all accurate cos/sin", "why_tests_cant": "universal over compositions and inputs", "anchors": ["src/scalar/", "src/twiddles.rs"]}
{"id": "C55", "title": "Index arithmetic never overflows while processing", "statement": "On 32-bit and 64-bit targets, in debug and release builds, with every usize addition, subtraction and multiplication of the processing functions checked or wrapping, each constructor returns exactly the instance that unbounded arithmetic gives: no index computation of any algorithm ever wraps, for any inner instances, lengths and data.", "quantifier": "all inner instances (safe Rust for SplitRadix and RadersAlgorithm), all compositions (on 32 bits, Rader lengths p with (p-1)*root and (p-1)*inverse below 2^32), both profiles, all element sizes from 4 bytes, all inputs", "why_tests_cant": "overflow could only show at sizes near 2^60", "anchors": ["src/scalar/", "src/array_utils.rs:146-160"]}
{"id": "C56", "title": "The inverse of the primitive root is computed without i64 overflow", "statement": "For 0 < a < b < 2^63, extended_gcd on i64 returns gcd(a, b) and Bezout coefficients without any overflow, in both profiles; hence the root and inverse of RadersAlgorithm::new, casts included, are those of unbounded arithmetic.", "quantifier": "all pairs below 2^63", "why_tests_cant": "2^126 pairs", "anchors": ["src/scalar/raders_algorithm.rs:36-47"]}
{"id": "C57", "title": "Safety, exactness and IEEE error of a run on machine arithmetic", "statement": "For every composition whose parts fit into memory, constructed and run with 32-bit or 64-bit arithmetic in either profile: no undefined behaviour; over the reals both methods compute the DHT of each chunk; over f32 and f64 the results are finite and within the stated error.", "quantifier": "all compositions (Radix4 up to 64; Rader up to 2^32, in debug builds any, on 32 bits those p with (p-1)*root and (p-1)*inverse below 2^32), all inputs", "why_tests_cant": "universal over compositions and inputs", "anchors": ["src/scalar/", "src/twiddles.rs"]}
{"id": "C58", "title": "The crate's tests pass for every random signal", "statement": "Every unit test of src/scalar (all algorithms, butterflies at f32 and f64, the reversal properties, the naive reference, the inner-scratch test) succeeds whatever finite numbers between 0 and 10 random_real_signal returns and whatever accurate cos and sin the platform has; more generally check_dht_algorithm accepts every composition whose roundings and growth are below an explicit bound.", "quantifier": "all signals, all accurate cos/sin, all compositions within the bound", "why_tests_cant": "a test run tries one signal on one platform", "anchors": ["src/test_utils.rs:26-145", "src/scalar/"]}
{"id": "C59", "title": "What a pass of check_dht_algorithm guarantees", "statement": "If compare_real_vectors accepts two vectors they have equal positive length, are finite, and their mean difference is at most 0.1 up to rounding. If check_dht_algorithm accepts an instance at length n, the instance has length n and its in-place result on the signal is finite and within a mean error of 0.101 + n(n+3)/400000 of the exact DHT.", "quantifier": "all vectors; all instances, signals and lengths up to 10000", "why_tests_cant": "a statement about the tests themselves", "anchors": ["src/test_utils.rs:26-145"]}
{"id": "C60", "title": "What check_dht_algorithm cannot see", "statement": "Whenever an instance passes, so do the instance whose out-of-place method writes nothing and the instance that processes only the first chunk, and neither computes any function of its chunks; no instance of length 0 passes; the f64 MixedRadix(2,2), whose error exceeds 2^-26, passes.", "quantifier": "all passing instances up to length 80000", "why_tests_cant": "a statement about the tests themselves", "anchors": ["src/test_utils.rs:51-145"]}
{"id": "C61", "title": "MixedRadix supplies the scratch its inner instances ask for", "statement": "If both inner instances return from every correctly sized call, whatever scratch they ask for and whatever they compute, MixedRadix returns from every correctly sized call; in particular test_mixed_radix_inner_scratch's check holds for every length and scratch size, not only 1, 5 and 25.", "quantifier": "all inner instances, lengths and scratch sizes", "why_tests_cant": "the test tries 729 combinations", "anchors": ["src/scalar/mixed_radix.rs:30-110", "src/scalar/mixed_radix.rs:307-345", "src/test_utils.rs:148-190"]}
{"id": "C62", "title": "Every algorithm copes with inner instances that only keep to the sizes", "statement": "If the user's instances return from every correctly sized call, keep buffer lengths and ask for no more scratch than their length (none out of place), then so does every composition over them, whatever they compute; RadersAlgorithm::new itself returns over such an instance.", "quantifier": "all compositions over all such instances, all buffers, debug and release", "why_tests_cant": "the tests only use inner instances that compute the DHT, except for MixedRadix", "anchors": ["src/scalar", "benches/bench_dht.rs:13-24"]}
{"id": "C63", "title": "The benchmarks run what they claim to run", "statement": "Every benchmark returns however often it is iterated: the Noop ones for all sizes, the Rader ones for odd primes up to 2^32, the Radix4 ones for all powers of two, the ones that assert a length for exactly the powers of 3, 5, 6 and, from 16 on, 2. The instances built by the recursive constructors compute the DHT of that length. make_splitradix below 16 returns an instance of length 16; bench_4xn_radix4 of 35 silently times length 32.", "quantifier": "all lengths and iteration counts", "why_tests_cant": "benchmarks are not tests, and use a few lengths", "anchors": ["benches/bench_dht.rs"]}
{"id": "C64", "title": "The relative error in the Euclidean norm grows with the depth of the composition", "statement": "For every composition tree the distance of the computed output from the exact transform X is at most (ratio - 1) times (|X| + n * smallest normal), where ratio multiplies one factor per layer. With MixedRadix4xn over Butterfly16, length 16*4^k, this is (k+1)*2^-18 in f32 and (k+1)*2^-42 in f64; with SplitRadix over Butterfly8 and Butterfly16, length 16*2^k, it is (k+4)*2^-20 and (k+3)*2^-44. RadersAlgorithm over an inner instance of relative error up to 1/128 loses a factor of at most 12*sqrt(p) for the prime p. Energy is kept and transforming twice multiplies by the length up to the same errors.", "quantifier": "all composition trees, all finite inputs below the overflow threshold, all k whose length fits usize; Rader primes up to 2^32", "why_tests_cant": "tests compare a few lengths up to a mean absolute error of 0.1", "anchors": ["src/scalar/mixed_radix.rs", "src/scalar/radix2.rs", "src/scalar/radix4.rs", "src/scalar/split_radix.rs", "src/scalar/raders_algorithm.rs"]}
{"id": "C65", "title": "Every instance is one fixed straight-line program", "statement": "For every composition that builds there is exactly one list of expressions - built from the input variables by additions, subtractions, negations and multiplications by constants - such that over every number type the output of the instance is the value of these expressions at the input: same operations, same order of operands, for every input and every type. Running the code on symbolic variables prints this list.", "quantifier": "all composition trees in range, all number types (no laws), all inputs", "why_tests_cant": "a statement about all number types at once; tests instantiate f32 and f64", "anchors": ["src/lib.rs", "src/scalar/", "src/twiddles.rs"]}
{"id": "C66", "title": "Scaling by powers of two is exact", "statement": "If y is x times 2^k (both finite), no intermediate result of the run on x or its multiple by 2^k overflows and no product underflows in either run, then every output for y is exactly 2^k times the output for x, in f32 and f64.", "quantifier": "all composition trees, all k, all inputs satisfying the range condition on the operations of the program of C65, any libm", "why_tests_cant": "bit-exact statement about all inputs and exponents", "anchors": ["src/scalar/"]}
{"id": "C67", "title": "Integers survive two transforms", "statement": "Transforming integers of magnitude at most B twice, dividing by the length and rounding to the nearest integer gives the integers back, whenever five times the relative error bound of C64 times sqrt(n)(B+1) is at most one. For example 8-bit samples at length 1024 in f32, and 16-bit samples at lengths 2^20 and 65537 in f64.", "quantifier": "all instances with a C64 bound, all integer inputs up to B, all lengths 16*4^k, 16*2^k and primes 16*2^k+1", "why_tests_cant": "no finite test covers all integer signals of a length", "anchors": ["src/scalar/radix4.rs", "src/scalar/split_radix.rs", "src/scalar/raders_algorithm.rs"]}
{"id": "C68", "title": "The Fourier transform and the transform of a rotated signal can be read off", "statement": "Half the sum, half the difference and half the sum of squares of output k and output -k (mod n) are the real part, the (sign-changed) imaginary part and the power of the discrete Fourier transform at k. Rotating the input left by s turns output k into cos(2 pi s k/n) X[k] - sin(2 pi s k/n) X[-k]. With rounding, the real and imaginary part so obtained (the last halving and sum exact) obey the same error bound as the outputs.", "quantifier": "all instances computing the transform, all lengths, inputs, frequencies and rotations; the last part for every rounded number type with an error bound (C34, C39-C43)", "why_tests_cant": "identity over all real inputs; the rounding part is a bound over all inputs", "anchors": ["src/lib.rs", "src/scalar/dht_naive.rs"]}
{"id": "C69", "title": "Debug builds and release builds agree", "statement": "Every integer function, every constructor and every processing call either panics in a debug build or does exactly the same in a release build: same result, same scratch lengths, same contents of every slice (also the same undefined behaviour or endless loop, if any). So whatever a debug build returned, the release build returns; a composition that a debug build constructs computes the Hartley transform in a release build too, within the same error bounds, without any bound on Rader lengths. The converse is false: where the debug build panics, the release build may return a wrong result.", "quantifier": "all compositions, lengths, slices, number types (no laws) and user-supplied inner instances that agree", "why_tests_cant": "tests run one profile at a time on finitely many sizes; the difference is only visible on overflow", "anchors": ["src/math_utils.rs", "src/scalar/", "src/array_utils.rs", "src/macros.rs"]}
{"id": "C70", "title": "Every length can be composed without the quadratic algorithm", "statement": "For every n >= 1 whose prime factors are all at most 2^32 there is a composition of MixedRadix, RadersAlgorithm and butterflies, without DhtNaive, that every number type and both profiles construct without a panic, whose length is n and which computes the Hartley transform of n points; on 64-bit arithmetic too if a chunk takes at most 2^60 bytes, and on 32-bit arithmetic if the prime factors are at most 2^16 and a chunk takes at most 2^28 bytes. In debug builds these are exactly the lengths: no composition without DhtNaive that a debug build constructs has a length with a prime factor above 2^32.", "quantifier": "all lengths n, all compositions (nested to any depth), number types and both profiles", "why_tests_cant": "infinitely many lengths; the construction recurses through the factorisations of n, p-1, (p-1)/q-1, ... and each RadersAlgorithm::new on the way must find its primitive root", "anchors": ["src/scalar/raders_algorithm.rs", "src/scalar/mixed_radix.rs", "src/scalar/butterflies.rs", "src/math_utils.rs"]}
{"id": "C71", "title": "Which out-of-place calls leave the input alone", "statement": "Every out-of-place call of DhtNaive, of a butterfly, of Radix4, or of MixedRadix2xn, 3xn, 4xn, 5xn, 6xn over an instance that does not touch its in-place scratch (such as a butterfly) that returns leaves the input slice and the scratch slice with their old contents, whatever the number of chunks. MixedRadix, SplitRadix, RadersAlgorithm and MixedRadix2xn over other instances overwrite the input.", "quantifier": "all lengths, all contents, any number of chunks, all number types; inner instances of the user's for the kxn algorithms", "why_tests_cant": "the tests never look at the input after an out-of-place call, and could only do so for finitely many inputs", "anchors": ["src/macros.rs", "src/scalar/butterflies.rs", "src/scalar/radix4.rs", "src/scalar/radix2.rs", "src/scalar/radix3.rs", "src/scalar/radix5.rs", "src/scalar/radix6.rs", "src/scalar/dht_naive.rs"]}
{"id": "C72", "title": "Operation counts and critical paths", "statement": "The outputs of every composition whose constructors return can be computed from the inputs and constants with at most ops(t) different additions, subtractions, multiplications and negations, at most path(t) of them in a row, where ops and path add up over the composition: 2n^2 for DhtNaive, W ops(h) + H ops(w) + 8(W-1) floor(H/2) for MixedRadix and the 3xn, 5xn, 6xn algorithms, 2 ops + 2 + 10 floor(h/2) for 2xn, 4 ops + 8 + 34 floor(h/2) for 4xn, ops(h) + 2 ops(q) + 12q for SplitRadix, 2 ops + 3n for RadersAlgorithm; the counts of the butterflies and of Radix4 are exact. Without DhtNaive the count is at most 5 * 2^r * n log2 n and the path at most 6 * 2^r * log2 n, r the nesting depth of RadersAlgorithm; split radix down to Butterfly8 and 16 takes at most 2n log2 n - 3n operations, 2 log2 n - 2 in a row.", "quantifier": "all compositions of the nine algorithms of all lengths (Radix4 up to 64, Rader up to 2^32), all inputs, all number types", "why_tests_cant": "tests and benchmarks only measure single lengths; a bound for all lengths and compositions is not observable", "anchors": ["src/scalar/dht_naive.rs", "src/scalar/butterflies.rs", "src/scalar/mixed_radix.rs", "src/scalar/split_radix.rs", "src/scalar/raders_algorithm.rs", "src/scalar/radix2.rs", "src/scalar/radix4.rs"]}
{"id": "C73", "title": "Where the fault of Radix4 lies", "statement": "At every power of two Radix4 computes the DHT of a rearrangement of its input that does not depend on the input's values; so the first output and the energy are right, a caller can get the DHT by rearranging the input first, and the inputs on which it is right are exactly those the rearrangement leaves alone. With the output offset i*(size/4) of prepare_radix4_reversed replaced by (3-i)*(size/4), and nothing else changed, it computes the DHT at every power of two.", "quantifier": "all powers of two, all real inputs", "why_tests_cant": "the unit tests stop at 64, where the fault cannot show; no finite test shows that the repaired index is right at every power of two", "anchors": ["src/scalar/radix4.rs:291-362", "src/scalar/radix4.rs:252-287"]}
{"id": "C74", "title": "In-place butterflies under the aliasing rules", "statement": "In place, every butterfly loads each cell before it stores to it, through two raw pointers made from one mutable reference. Tree Borrows allows exactly such sequences, so it allows the butterflies. Stacked Borrows rejects the very first load of every in-place butterfly call: RawSliceMut::new(buffer) invalidates the pointer that RawSlice::new(buffer) took before. Out of place both allow all accesses. If the loads went through the pointer of the RawSliceMut, both would allow every sequence of loads and stores.", "quantifier": "all eight butterflies that use raw slices, all number types, all buffers, all cells", "why_tests_cant": "tests compiled natively cannot see an aliasing violation; the compiler may exploit it later", "anchors": ["src/scalar/butterflies.rs:11-90", "src/array_utils.rs:63-140"]}
{"id": "C75", "title": "The transform's laws under rounding", "statement": "An instance with relative error r - 1 is backward stable: its computed output is the exact transform of an input that differs from the given one by at most (r - 1) times its length. Its outputs depend continuously on the inputs with constant sqrt n, and it is linear, up to the same relative errors.", "quantifier": "all number types with rounded arithmetic, all instances with a bounded relative error (C64: every tree), all inputs that cannot overflow", "why_tests_cant": "quantifies over all inputs and over a witness input that is never computed", "anchors": ["src/lib.rs:20-85", "src/scalar/split_radix.rs:48-160", "src/scalar/radix4.rs:77-153"]}
{"id": "C76", "title": "Convolutions of integers are exact", "statement": "Transforming two integer sequences, combining the spectra in floating point arithmetic, transforming once more, dividing by 2n and rounding gives their circular convolution without error, if the product of the magnitudes times n sqrt n is small against the reciprocal of the relative error.", "quantifier": "all integer inputs within the magnitudes; lengths 16 * 4^k, 16 * 2^k, primes 16 * 2^k + 1, and any other tree through its relative error; f32 and f64; any accurate libm", "why_tests_cant": "quantifies over all inputs and over unboundedly many lengths", "anchors": ["src/lib.rs:20-85", "src/scalar/split_radix.rs:48-160", "src/scalar/radix4.rs:77-153", "src/scalar/raders_algorithm.rs:98-200"]}
{"id": "C77", "title": "32-bit targets", "statement": "On a target whose usize has 32 bits, compositions (chunks up to 2^28 bytes) are the same instances as on a 64-bit target if for each Rader length p the products of p-1 with the primitive root and with its inverse are below 2^32; that is so for all primes below 67679 and for none from 2^22 on, and a debug build gets a working Rader instance exactly at these lengths, and so, over exact reals, does a release build (elsewhere the release build returns an instance that gets some unit vector wrong or panics on it). Elsewhere RadersAlgorithm's `(index * root) % len` is computed in usize and overflows: RadersAlgorithm::new of a debug build panics if (p-1) times the inverse root reaches 2^32; from 2^22 on no instance of a debug build ever returns from a call; in a release build the product wraps: at p = 67679 the instance over DhtNaive returns wrong results, and at p = 96847 new returns an instance on which every call panics, while on 64 bits the same composition computes the transform. For whole compositions of nonzero length: an instance that a 32-bit debug build returns is the one a 64-bit build returns, or every call on it panics.", "quantifier": "all compositions, number types, inner instances; all primes from 3 to 2^31", "why_tests_cant": "the tests run on the developer's 64-bit target with small primes", "anchors": ["src/scalar/raders_algorithm.rs:58", "src/scalar/raders_algorithm.rs:111", "src/scalar/raders_algorithm.rs:157", "src/scalar/raders_algorithm.rs:175", "src/scalar/raders_algorithm.rs:225"]}
{"id": "C78", "title": "32-bit debug builds agree with 64-bit builds", "statement": "Whatever a debug build for a 32-bit target returns - from a constructor, or from a call on an instance - debug and release builds for a 64-bit target return too. So on 32 bits a debug build never returns a wrong transform (Radix4 up to 64 only), at any Rader length: it panics instead. The results for f32 and f64 obey the same error bounds.", "quantifier": "all compositions, constructors over arbitrary agreeing inner instances, number types, buffers", "why_tests_cant": "a test run compares neither targets nor profiles", "anchors": ["src/scalar/raders_algorithm.rs:58", "src/scalar/raders_algorithm.rs:111", "src/array_utils.rs:1"]}
