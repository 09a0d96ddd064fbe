# Formal model of koeppl/stringology-rust in Rocq (Coq 8.16.1)

## Approach

* `/verif/rocq/theories` holds the model, the specifications and the proofs. Everything is
  plain Gallina over `list nat`, `N`, `Z`, and for the entropy programs the reals `R`.
* Rust `panic!`, failed `assert!`, out-of-range indexing, checked-arithmetic overflow (the `dev`
  profile of cargo, used by `cargo run`/`cargo test`) are the explicit value `Panic` of a result
  monad `res A := Ok a | Panic | OutOfFuel`. A loop is a fuelled combinator whose exhaustion is
  `OutOfFuel`; every theorem states `= Ok ...` or `= Panic`, so exhaustion is excluded by proof.
* Characters (`C: Ord`, `u8`) are `nat`; bytes are `nat` with explicit `< 256` where it matters.
  `usize`/`i32`/`u32` lengths and indices are unbounded `nat` unless the property is about
  overflow (then `N` with explicit `mod 2^w` or a checked operation).
* `slice::sort_by` (std, documented stable) is modelled by a stable insertion sort; C102 proves that any stable sorting procedure gives the same results (and, for `core.rs`, any correct one).
* `cdivsufsort::sort_in_place` (C code, not in this repository) is an oracle: theorems quantify
  over every function that returns *the* suffix array of its argument (`is_suffix_array`), and
  the naive suffix sorter is proved to be one such function, so the hypothesis is satisfiable.
* `segment_tree::SegmentPoint` with `Min` is modelled by the minimum over the queried range,
  `succinct` rank/select by counting.
* Files: `Base.v` (monad, loops, arrays), `Spec*.v` (definitions used to state properties, no
  model functions), `Model*.v` (the code, each definition citing file and lines), `*Proof*.v` and `*Facts.v`,
  `Props*.v` (the property theorems only, each closed by `exact`, with `Print Assumptions` and a
  non-vacuity `Example`).

## Per property plan

| id | modelled | how proved |
|---|---|---|
| C01 | duval as written (3 nested loops) | loop invariants: processed prefix is factored, current window has a Lyndon period |
| C02 | duval | uniqueness of non-increasing Lyndon factorizations |
| C03 | isa_lyndon_factorization, inverse_permutation | prefix minima of ranks = starts of Lyndon factors |
| C04 | lyndon_conjugate | factorization of the doubled text |
| C05-C07 | border_array, smallest_period, is_primitive | KMP invariant; borders <-> periods; Fine-Wilf |
| C08 | suffixarray_naive | insertion sort sorted + permutation, uniqueness of sorted permutations |
| C09,C10 | inverse_permutation, compute_phi | array-update invariants |
| C11 | compute_plcp, compute_lcp | Phi-algorithm invariant plcp[i+1] >= plcp[i]-1 including the wrap-around entry |
| C12 | compute_psv, compute_nsv with the 2^32-1 marker | chain invariant |
| C13-C17 | bwt functions | sorted rotations; prefix-doubling determination of sorted rotations from the last column |
| C18,C19 | bbwt_naive | omega-order sort; determination of all k-prefixes from the output; multiplicities of Lyndon factors |
| C20 | LyndonWordGenerator::next as a state machine | successor lemma (Duval 1988) |
| C21 | BinaryStringGenerator::next | exact description of what it yields; documented order refuted |
| C22-C25 | iterators, number_of_runs over event streams, bit_size | induction over histories |
| C26 | mtf | decodability for inputs without byte 255; panics on byte 255 (refuting the general claim) |
| C27-C29 | rle, rle_zero, rle_text | decoder round trip with exact panic condition; rle_zero described exactly (lossy); text format byte for byte |
| C30,C31 | escape main loop | round trip; default prefix length writes nothing |
| C32-C34 | count_sigma, reverse, io | exact results including the panics |
| C35-C37 | compute_lz77, decode_lz77 | longest previous factor via PSV/NSV + LCP range minima; greedy optimality |
| C38 | compute_lexparse | uniqueness by induction on lexicographic rank; unary texts refuted |
| C39,C40 | get_mus | LCP characterisation; behaviour of the program, which appends no sentinel |
| C41 | lcp_intervals (heap of nodes), is_attractor | stack invariant, shortest string of each edge |
| C42-C51 | word.rs generators, overflow checks and the f64 length estimate (SpecFloat) | morphism iteration / bit characterisations; estimate evaluated for every u8 |
| C52,C53 | is_necklace, binary_debruijn_word | prenecklace characterisation; injectivity of the shift rule; completeness refuted |
| C54,C55 | enumerate, generator_kmer | positional numeral systems |
| C56,C57 | entropy, entropy_kmer with f64 idealised to Coq reals; 64-bit ring buffer, arbitrary hash map order | context partition of the suffix array; k-mer counts |
| C58 | randomstring loop over a random stream | invariant; termination for recurring streams |
| C59,C60 | bwt, count_r, lyndonfactorization mains | composition of the above, decimal output |
| C61 | thuemorse_word | parity argument on overlaps (Thue) |
| C62 | lyndonwords main | composition with C20 |
| C63 | iterate_general_morphism(_with_startsymbol), iterate_2morphism | loop invariant: text = image of a prefix plus the rest; refutations for the two documented assumptions that are too weak |
| C64 | bin/word.rs main | dispatch over all names, composition of C42-C52 |
| C65 | parallel.rs number_distinct_lyndon_factors | counts the changes between consecutive factors; off-by-one of the first comparison characterised and refuted |
| C66 | parallel.rs main: worker threads and their locks as a transition system | inductive invariant over all schedules (statistics + work in flight = words handed out), decreasing measure, progress |
| C67 | parallel.rs max_lyndon_word, same; the i32 counters panic on overflow and poison the mutexes held (`p_step` on top of `m_step`) | invariant as for C66; executions without panic simulate unbounded counters; deadlock characterised and shown reachable; lost update of the best conjugate shown by a schedule; bound 2^n-1 on the conjugates of binary Lyndon words of length n (distinct rotations), 15^7 Lyndon words of length 40 for the refutation |
| C68 | is_attractor on fibonacci_word (generalises the unit test) | attractor by induction on k (periods of Fibonacci words, near-commutation), then C41, C42, C43 |
| C69 | get_mus_from_text on fibonacci_word | singular words are unique by a sliding-window letter count; all other intervals repeat; then C39 |
| C70 | is_attractor on period_doubling_word | 2-adic valuation of positions; then C41, C46 |
| C71 | entropy programs on periodic texts | contexts are residue classes; closed form; zero order by frequencies |
| C72 | entropy program, orders j <= k | Gibbs' inequality, superadditivity of n H0 under concatenation |
| C73 | count_lexparse | phi = lexicographic predecessor (ranks), plcp = lcp; the wrap-around at rank 0 matters only for unary texts |
| C74 | count_lexparse, count_r | reducible positions make PLCP drop by one, so each copy factor pays with an irreducible position (= run start); literals have distinct letters |
| C75 | count_z, count_lexparse, is_stringattractor | an occurrence strictly inside a factor moves to one of smaller rank (text position / suffix rank): well-founded induction; for the BWT: the occurrence of smallest suffix rank has plcp < length, so an irreducible position lies inside (RunAttr.v) |
| C76 | enumerate_lexparse | the relabelling search is a running minimum/maximum over all permutations, all words by the k-mer generator (C32 lemmas); lexparse sizes unique; records are prefix maxima |
| C77 | is_stringattractor (main, printed lines) | the printed walk equals the deciding walk of C41; each line is an uncovered edge label prefix, every uncovered substring lies below a reported edge |
| C78 | bwt, count_r, count_runs, escape, mtf, rle chained | composition of the per-program theorems; inverse BWT, MTF decoder and RLE decoder give losslessness |
| C79 | rle, rle_text, rle_zero with wrapping u8 arithmetic (ModelRelease.v) | invariant: the counter is (run length - 1) mod 256; block decomposition of the input |
| C80 | count_sigma with wrapping u8 arithmetic | invariant up to 255 letters; after the last new letter the counter is 0 and only that letter still counts as unseen |
| C81 | all word functions with wrapping arithmetic and masked shifts | refinement of the checked functions; masked shift = checked function at k mod 64; hints mod 2^64 only affect capacities |
| C82 | mtf, rle, escape as sequences of file accesses (SpecFs.v, ModelFs.v) | every access may fail, writes byte by byte; an invariant of all reachable configurations (weakest preconditions of the programs) relating bytes read to bytes written; decoders are monotone in prefixes |
| C83 | the same programs and reverse, bwt, count_z, count_lexparse, lyndonfactorization with one file | the file is emptied before the first read, so the invariant is "old or empty"; the others slurp first |
| C84 | order of computing and creating files | the same invariants; lyndon_file never panics (C60), so nothing fails between creation and writing |
| C85 | write_factors, decimal formatting | separators are no digits: unique parsing; then C35, C38 |
| C86 | lyndon_conjugate with all BWT variants | a necklace is a power of a Lyndon word, so its omega-sorted conjugates are the prefixes of its sorted rotations; suffix order refines rotation order; BBWT injectivity for the converse; uniqueness of the Lyndon factorization for TT |
| C87 | parallel.rs probe_main | loop invariant over the conjugates (no win so far => best is the word itself), generator correctness (C20) |
| C88 | parallel.rs main: lines printed by a worker | simulation with the model of C66; C65 |
| C89 | parallel.rs main: table | C66 plus: every word has a class inside the printed range; BWT of a binary Lyndon word starts with 1 and ends with 0 (even number of runs) |
| C90 | matrix BWT of fibonacci_word | w = Pxy and a rotation by s coprime to the length is Pyx: stepping by s runs through the sorted rotations, the last letter changes once |
| C91 | suffix-array BWT of fibonacci_word | even index: the same chain also sorts the suffixes; odd index: three suffixes (aab, ab, the whole word) show a pattern b..a..b |
| C92 | entropy at order 0 in IEEE binary64 (Flocq) with an arbitrary accurate log2 (ModelFloat.v: the programs with the arithmetic as a parameter) | forward error analysis: every rounded operation multiplies by 1+e, |e| <= 2^-53; sums of non-negative terms; (1+u)^N linearised |
| C93 | kth_order_entropy in binary64 | for any arithmetic the program is a fold over the groups of the suffix array; then the same error analysis |
| C94 | entropy_via_kmer_counting in binary64, any hash order | as C93; the subtraction cancels, so the bound is absolute (log2 n) |
| C95 | the programs over any two arithmetics | parametricity: a relation preserved by the operations is preserved by the programs |
| C96 | the println! lines of the analytic tools (ModelResult.v; time and f64 formatting as arguments) | splitting at blanks; decimal notation; values from C32, C37, C73, C59, C60, C56 |
| C97 | the line of mus, Debug output of pairs | separators are no digits: unique parsing; the last word of the line contains no '=' |
| C98 | `is_attractor_io`, `is_stringattractor_main`, `utf8_valid` (ModelAttr) with arbitrary non-zero bytes; UTF-8 specified in SpecUtf8 by encoding of scalar values | the final loop prints/asserts over the edges in order: result is a function of the list of uncovered edge words (`io_run_any`); new invariant of the interval tree: the depth of a parent is the lcp value at one end of the child's interval, hence edge words = uncovered words with right-maximal parent; `utf8_valid` <-> encoding by case analysis on lead bytes |
| C99 | `is_stringattractor_main` (ModelAttr) on texts with a zero byte, the empty text, positions behind the text | the end marker has rank 0; a zero byte in the text forces lcp[1] >= 1, and the first iteration of `lcp_intervals` then needs a child that does not exist |
| C100 | `out_step`, `out_run`, `status_block` (ModelPar3) over the transition system of ModelPar2 | invariant relating counters to the words handed out and the words still held by busy workers; the printing worker holds the total, so at most threads-1 workers are busy; refutations by explicit schedules |
| C101 | counted copies of the functions (ModelCost) | erasing the counter gives the models; partial-correctness rules for value and cost (CostFacts), potential arguments: window of duval, border length, chain length of psv/nsv, lcp value, path length |
| C102 | the callers of `slice::sort_by` with the sorting procedure as a parameter (ModelSort) | sorted permutations give the same transform / suffix array (uniqueness lemmas of C08, C16, C18); two stable sorters agree (filter by equality class) |
| C103 | release variants of the string generators and of lyndonwords (ModelRelease2) | stepwise refinement checked build -> release build; beyond the checked domain direct induction on the number of calls |
| C104 | the functions without their debug-only checks, lyndonfactorization with its debug block (ModelDebug) | each step of the checked program that returns also does so without the check; the checked programs do not fail on the inputs the programs build (C35, C03, lcp_intervals_ok), or both fail before the check |
| C105 | fibonacci_word with count_z, count_lexparse and count_r | LZ77: the singular words (fib_mus) bound the previous factors; lexparse, even index: predecessor of a suffix is the suffix shifted by the length of the previous word; lexparse, odd index: two suffixes that part share a suffix of the word without its last two letters (FibLex2), so the factors are given by borders, bounded by the unique prefixes; runs, odd index: the letter before a rotation decides its side of the word, borders are the words of smaller odd index, downward induction over them |
| C106 | `ModelCost.v` (`lwg_next_c`, the generator with a step counter, erasing to `lwg_next`), `SpecCost.v` (`total`) | `LwgCount.v`: Lyndon words of length <= n are in bijection with prenecklaces of length n; their number at least doubles when n grows by 2 (injections y -> 0y0 and y -> y.c.z with disjoint images); hence the slack sum is at most 3A. `LwgCost.v`: exact cost of each call. `PropsLwg.v` |
| C107 | `ModelFs2.v`: lyndonwords, randomstring, enumerate, generator_kmer, enumerate_lexparse as sequences of file accesses (the steps of `SpecFs.v`) | `FsProof5.v`: programs that only write; in every reachable configuration the output is a prefix of all they would write (`gather`), more fuel only extends it; `gather` equals the output of the pure models of C54, C55, C58, C62, C76. `PropsFs2.v` |
| C108 | core, word, count_z, count_lexparse, mus, is_stringattractor, bwt, count_r, entropy (no new model code) | the specification objects (suffix array, Lyndon factorization, BWT matrix, omega order, lcp values, borders, minimal unique substrings, attractors, contexts) are carried over by the renaming and are unique; the factorization loops are simulated step by step (RenameProof.v, RenameProof2.v) |
| C109 | count_z, count_r, count_lexparse (no new model code) | greedy = minimal (C37), so parsings are transformed: truncated, concatenated, shifted, split at the changed letter (LzRel.v) or block (LzEdit.v); the refutations are evaluated |
| C110 | bwt_by_matrix(_naive), bwt/count_r main, thuemorse/period_doubling/vtm_word (no new model code) | the sorted rotations of a morphic image are the sorted images of the rotations plus the rotations that start inside an image (MorphBwt.v, MorphBwt2.v: monotone or antitone morphisms); induction on k with the run count of each part (MorphRuns.v) |
| C111 | the `Args` structs of all programs (option tables), clap 4's parser (ModelArgs.v) | SpecArgs.v is a grammar of command lines; spelled lines are parsed as their uses (ArgsProof2.v), accepted lines are spelled (ArgsProof3.v); tables checked by computation; rle's table behaves like one without clashes (ArgsProof5.v) |
| C112 | the beginning of every `main` (ModelArgs2.v), rle in a release build on files (ModelFs3.v) | C111 plus the existence of settings; enumerate's positional arguments by cases (ArgsProof6.v); rle's files as in C82 (FsProofRle.v) |
| C113 | gen_artificial.sh with `word` behind it (ModelScripts.v) | the 210 command lines are parsed by computation, each call then writes the word of C64 into its file; induction over the calls; for interruptions the invariant `between` of all executions (ScriptProof.v) |
| C114 | compute_stats.sh: grep, the sed patterns, the calls (ModelScripts.v) | a RESULT line has the key at one place only, so the rightmost match is that field (ScriptProof2.v); the options of the script are refused by computation (C111); with -i by C96 |
| C115 | no new model: the programs of C112, the file system of C82, the readings of C96 | composition of C111/C112 (options), C82/C33/C59/C64 (files), C105/C110 (counts), C96 (lines) (PropsSession.v); the analytic programs read `input`, required to be what the world holds |
| C116 | no new model: the word families (C42, C44, ...) and count_z (C36) | the parsing is unique, so it suffices to exhibit one: longest previous factors are doubled by the uniform morphisms (LzMorph.v: Thue-Morse, period doubling, vtm, power2; LzMorph2.v: paper folding), carried over by the tribonacci morphism (LzTrib.v), and, for the Lyndon factors of the Fibonacci word, read off the Fibonacci words (LzLyn.v, FibLz.v); then composed with C115/C96 |
| C117 | no new model: the word families (C42, C44, ...), duval (C01, C02) and lyndonfactorization (C96, C112) | the factorization is unique (C02), so it suffices to exhibit one: each family has a morphism conjugate to a power of its own that keeps the order and the Lyndon words (LynMorph.v: decided by computation on the images of the letters), so the factors of the next word are the images of the factors of this one up to a few letters at both ends (LynFam.v: Fibonacci, vtm, period doubling; LynFam2.v: paper folding; LynFam3.v: tribonacci; LynFam4.v: Thue-Morse, with y b -> a h(y) b in place of a morphism; LynFam5.v: power2); then composed with C115/C96 |
| C118 | no new model: is_attractor (C41), count_z (C35), count_lexparse (C73), count_r (C20), binary_debruijn (C52) | SpecSub.v defines the number of different substrings as nodup of the list of all; SubCount.v: every substring of length m has an occurrence starting in one of the m positions before an attractor position; every LZ77 factor but the last, with the letter behind it, is a string that does not start earlier in the text, so factors shorter than l give different strings |
| C119 | no new model: mus (C39, C40), count_r (C20) | MusRuns.v: for a minimal unique substring at i, the rest behind its first letter occurs a second time, so the row of suffix i+1 has a neighbour in the suffix array that shares the rest; if both had the same BWT letter the substring would occur twice, so the row is the first or last of a BWT run; the row of the whole text and row 0 are subtracted |
| C120 | no new model: count_runs (core number_of_runs), count_z, count_lexparse, count_r, mus, duval | TextRuns.v, TextRuns2.v: inside a run of equal letters the greedy LZ77 parsing and the lexparse need at most two factors because position i+1 of a run copies from i (z) and because PLCP decreases by one inside a run (v); a BWT letter change inside the suffix-array block of one letter needs a run start, so r <= 2 rho + 1; a Lyndon factor that is not one letter repeated is preceded by a new run, equal factors counted once |
| C121 | no new model: binary_debruijn_word (C52), lyndon_conjugate, is_primitive, duval | PropsDebruijn.v: a power would repeat a cyclic window, so the word is primitive; only the window at length-(k+1) is a^(k+1), and every rotation not above it starts with a^(k+1) as well |
| C122 | no new model: kolakoski_word (C45), count_runs, word | PropsKolakoski.v: the k+1st word is the expansion of the k-th, whose runs are maximal because the letters alternate; runs of b and a alternate and have one or two letters each, which bounds the number of letters b and so the growth |
| C123 | no new model: reverse (C33), mus, is_attractor, count_runs, count_sigma, entropy, border_array, is_primitive | PropsReverse.v: same_substring is kept by mirroring, and with it unique substrings, MUSs, attractors and substring counts; the sorted lists of mus are determined by their members; the entropy loops see only the counts |
| C124 | no new model: word (C42–C51, C64), number_of_runs (C27), the command lines (C112, C115) | RunFam.v: joining two words and applying a morphism changes the number of runs by the borders that meet; one induction along the morphism or recurrence per word family; the words with no square of a letter have one run per letter; power2 through its blocks (C117) |
| C125 | no new model: word (C42–C52, C64), count_sigma (C32, C96), the command lines (C112, C115) | LetFam.v: the occurrence counts of an image under a morphism are linear in those of the word; induction per family; PropsLetFam.v: the different letters are those with positive count; kolakoski from its balance (C122), binary_debruijn from its primitivity (C121) |
| C126 | no new model: the word families (C42–C52), border_array, smallest_period, is_primitive (C05–C07) | PerFam.v: a primitive word occurs in its square only at the ends (Fine and Wilf), so Fibonacci and tribonacci words, squares up to a prefix, have the expected period; 2-uniform injective morphisms double the even periods and the odd ones fail on position parities; Lyndon words have no border; PropsPerFam.v |
| C127 | no new model: the word families (C42–C52), word (C64, C115) | PowFam.v: a factor with period p and length 4p − 1 of a word built of blocks a, ax desubstitutes to one with smaller index (Fibonacci, tribonacci; Lyndon factors are factors of Fibonacci words); parities of positions and desubstitution for period-doubling, quaternary and binary paperfolding; C48 and C61 for the Thue-Morse words; powers persist under the morphisms; PropsPowFam.v |
| C128 | no new model: the word families (C42–C52), reverse (C33, C115), bwt and count_r (C59), lyndon_conjugate (C04) | RevFam.v: a morphism h with h(c)a = a·rev h(c) maps a word whose reversal is a rotation to another one; the square of the ternary Thue-Morse morphism is of this kind; complements for Thue-Morse; paperfolding letters from C50 by 2-adic valuation; PropsRevFam.v |
| C129 | no new model: the word families (C44–C48), bwt and count_r (C59, C112, C115) | MorphBwt3.v, MorphBwt4.v: for a morphism that keeps the order, the sorted rotations of an image are found in groups, given by the position in the image and the first letters; that the groups are in order is decided on the finitely many windows of the words; each morphism becomes a computable step on the parts of the BWT; MorphBwt5–7.v: the steps for the end-marked families (period doubling two steps at a time), and the number of runs by induction over them; PropsEndBwt.v |
| C130 | no new model: the paperfolding words (C44, C46), bwt and count_r (C59, C112, C115) | MorphBwt8.v: the machinery of MorphBwt3.v on the quaternary words with a coding as the last step, parts told apart by three letters, the order of the parts decided on windows of length 7; the step on the parts and the number of runs by induction from the sixth word, the first six words executed; PropsPaperBwt.v |
<!--MORE-->

## Trusted base

* Coq 8.16.1's kernel (including the virtual machine: some proofs over small finite ranges, e.g. "for every `u8`",
  use `vm_compute`), `coqc`, and the reading of the Rust source: every definition of `Model*.v` cites the file
  and lines it models.
* `Print Assumptions` (written after every property theorem in `Props*.v`): all theorems except those of C56, C57, C71, C72 and C92-C95, C96_entropy, C96_entropy_kmer, C108_letters_entropy, C112_entropy, C112_entropy_kmer, C114_compute_stats_refuted and C114_with_infilename
  are "Closed under the global context". Those that mention real numbers (C56, C57, C71, C72 in
  `PropsEntropy*.v`, C92-C95 in `PropsFloat.v`, which uses Flocq's definition of IEEE 754 arithmetic; C96, C108 and C112 only pass such numbers on) list the axioms of Coq's standard library for the reals and nothing else:
  `ClassicalDedekindReals.sig_not_dec`, `ClassicalDedekindReals.sig_forall_dec`,
  `FunctionalExtensionality.functional_extensionality_dep`, and for some of them `Classical_Prop.classic`.
* No axiom, parameter, functor, module type or admitted proof is declared. Sections only use `Context`/`Let`
  inside `Section`s, so that the exported statements are closed.

## What is modelled and what is not

Modelled: `src/core.rs`, `src/io.rs` (the functions reading into a vector and `read_char`), `src/word.rs`
entirely; of `src/bin`: bwt, count_lexparse, count_r, count_runs, count_sigma, count_z, entropy, entropy_kmer,
enumerate, enumerate_lexparse, escape, generator_kmer, is_stringattractor, lyndonfactorization, lyndonwords, mtf, mus,
randomstring, reverse, rle, word; of `src/unfinished` (not listed in Cargo.toml): parallel.rs (number_distinct_lyndon_factors,
main with its output, probe_main, max_lyndon_word with its output). See the comments for the line ranges.

Simplifications (also stated at the definitions):

* Build profile: overflow checks on (cargo's dev/test profile), except in ModelRelease.v, which models the functions
  of rle, count_sigma and word.rs that behave differently in a release build (wrapping arithmetic; C79-C81), and in ModelRelease2.v,
  which does so for the string generators and lyndonwords (C103).
* Memory exhaustion and stack overflow are not modelled; running time only as the number of loop iterations of the functions of C101 (ModelCost.v); the `isize::MAX` capacity check of `Vec`
  is, where sizes can reach it.
* Positions in texts are unbounded naturals, except where the width matters (u32 markers in psv/nsv, the
  casts in count_z and mus are covered by the length hypotheses, u8 counters, 64-bit shifts).
* `cdivsufsort` is an oracle for the suffix array; `segment_tree` range minima, `succinct` rank/select,
  `itertools`, `HashMap`, `HashSet`, `VecDeque` and `generator` are modelled by their documented meaning; hash map
  iteration order is arbitrary.
* f64: `word.rs` uses binary64 with round-to-nearest (`SpecFloat`); the precision of `powi` is not specified by
  Rust, the model uses the usual repeated squaring, and C42_any_estimate shows what holds for any estimate. The
  entropy programs are read over the real numbers in C56, C57, C71, C72 and in binary64 arithmetic (rounding to nearest even,
  overflow, NaN) in C92-C95; there f64::log2 is any function with a bounded relative error on [1, oo) (SpecLog.v), a hypothesis
  that the correctly rounded logarithm satisfies (C92_log2_exists); converting a usize up to 2^53 to f64 is exact.
* Command lines: clap (a library, not part of the repository) is modelled by its documented behaviour (ModelArgs.v): option
  tables as its derive macros build them, ASCII arguments, of an error only "refused". bin/rle.rs derives the short option
  -o for both `outfilename` and `onlyzero` (and -h for `human`); clap 4 rejects such a command in its debug assertions, so in
  a dev build the *program* rle stops while parsing its arguments whatever they are (C112_rle_debug). C27-C29 are therefore
  about the functions; what the rle program does in a release build is C79 and C112.
* Logging and timing are not modelled (times are arbitrary numbers in the printed lines). File accesses, their order and their failures (opening,
  creating, reading, partial writes, lost buffers) are modelled in SpecFs.v/ModelFs.v/ModelFs2.v/ModelFs3.v for the programs of C82-C85, C107 and C112; in the
  other files readers may fail at any byte and writing succeeds. In SpecFs.v a file is its contents: no other process, no
  aliases of names, bytes handed to the operating system are not lost, and the line buffer of the standard output is
  not represented (what has arrived there is a beginning of what the model says). The rle program of ModelFs.v has
  overflow checks on; ModelFs3.v has them off.
* Scripts: gen_artificial.sh and compute_stats.sh are modelled in ModelScripts.v (zsh, grep, sed and basename by their
  documented behaviour on the lines that occur; file names without blanks, backslashes and line breaks; `set -x`, cargo's own messages and
  `mkdir` are left out).
* Threads: one step of one thread at a time (sequentially consistent, which mutex-protected data is); locks block,
  and are poisoned by a panic while held. `no_deadlocks`' run-time detection is not modelled.
* Random numbers (`randomstring`) are an arbitrary stream.
* RepoTests.v runs the unit tests of /repo on the model (word.rs, core_test.rs, mtf, count_z, is_stringattractor, mus,
  count_sigma, parallel.rs). They are tests of the model, no theorems, and no claim rests on them.

