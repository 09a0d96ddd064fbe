#!/usr/bin/env python3
"""Writes /verif/properties.jsonl (the single source of the property texts)."""
import json, os
P = []
def p(title, statement, quantifier, why, anchors):
    P.append(dict(id="C%02d" % (len(P)+1), title=title, statement=statement,
                  quantifier=quantifier, why_tests_cant=why, anchors=anchors))
ALLTXT = "every text (every length, every alphabet)"
INF = "the set of texts is infinite; the repo's tests only enumerate short binary strings from RandomStringGenerator"
p("duval returns the Lyndon factorization",
  "For every text, duval terminates without panicking and returns the ending positions of factors whose concatenation is the text, each of which is a Lyndon word (strictly smaller than every proper suffix), in lexicographically non-increasing order.",
  ALLTXT, INF, ["src/core.rs: duval"])
p("the Lyndon factorization returned by duval is the only one",
  "Any way of cutting the text into a non-increasing sequence of Lyndon words has exactly the ending positions duval returns.",
  ALLTXT + " and every candidate factorization", "universally quantified over all competing factorizations", ["src/core.rs: duval"])
p("isa_lyndon_factorization agrees with duval",
  "For every non-empty text, isa_lyndon_factorization applied to the inverse suffix array of the text returns exactly duval(text).",
  "every non-empty text, with or without sentinel", INF + " and always with a 0 sentinel", ["src/core.rs: isa_lyndon_factorization, inverse_permutation, duval"])
p("lyndon_conjugate finds the smallest rotation",
  "For every non-empty text of length n, lyndon_conjugate returns an r < n such that text[r..]text[..r] is lexicographically <= every rotation of the text; on the empty text it panics.",
  "every text, primitive or not", INF, ["src/core.rs: lyndon_conjugate"])
p("border_array holds the longest borders",
  "For every text of length n, border_array returns n+1 entries, and for 1<=i<=n entry i is the length of the longest proper border of text[0..i).",
  ALLTXT, INF + "; the tests check that an entry is a border, not that it is the longest", ["src/core.rs: border_array"])
p("smallest_period is the smallest period",
  "For every text of length n>=1, smallest_period(border_array(text)) is the least p with 1<=p<=n such that text[i]=text[i+p] whenever i+p<n.",
  ALLTXT, "tests check periodicity, never minimality, and only on short binary strings", ["src/core.rs: smallest_period, border_array"])
p("is_primitive decides primitivity",
  "For every non-empty text, is_primitive(text) is true iff there is no string u and m>=2 with text = u^m; it is true on the empty text and never panics.",
  ALLTXT, "no test exists; needs the Fine-Wilf theorem for all lengths", ["src/core.rs: is_primitive"])
p("suffixarray_naive is the suffix array",
  "For every text, suffixarray_naive returns a permutation of 0..n in which the suffixes are strictly increasing, and this is the only such permutation.",
  ALLTXT, INF, ["src/core.rs: suffixarray_naive"])
p("inverse_permutation inverts",
  "For every permutation arr of 0..n, inv=inverse_permutation(arr) satisfies inv[arr[i]]=i and arr[inv[j]]=j for all i,j, and applying it twice gives arr back; an out-of-range entry panics.",
  "every permutation of every length", "n! permutations for unbounded n", ["src/core.rs: inverse_permutation"])
p("compute_phi maps each position to its lexicographic predecessor",
  "For every permutation sa of 0..n (n>=1), phi[sa[i]]=sa[i-1] for i>=1, phi[sa[0]]=sa[n-1], and phi is itself a permutation of 0..n; empty input panics.",
  "every permutation of every length", "n! permutations for unbounded n", ["src/core.rs: compute_phi"])
p("compute_plcp and compute_lcp give the longest common prefixes",
  "For every non-empty text with suffix array sa, compute_plcp(text, compute_phi(sa))[i] is exactly the length of the longest common prefix of the suffixes at i and phi[i], and compute_lcp lists them in suffix-array order, so lcp[i] is the LCP of the suffixes sa[i-1] and sa[i] for i>=1.",
  "every non-empty text", "the algorithm never restarts its comparison from 0; its correctness needs an amortised argument over all texts", ["src/core.rs: compute_plcp, compute_lcp, compute_phi"])
p("compute_psv / compute_nsv find the nearest smaller values",
  "For every non-empty array of fewer than 2^32 entries, psv[i] is the largest p<i with arr[p]<arr[i] and nsv[i] the smallest p>i with arr[p]<arr[i], or u32::MAX when there is none; empty input panics.",
  "every non-empty array shorter than 2^32", "unbounded arrays; no unit test exists", ["src/core.rs: compute_psv, compute_nsv, INVALID_VALUE"])
p("bwt_from_text_by_sa is the suffix-array BWT and a permutation of the text",
  "For every non-empty text whose bytes other than the last are non-zero, bwt_from_text_by_sa returns without panicking the list text[(sa[i]-1) mod n], which is a permutation of the text; it panics on the empty text and on every text with a zero byte before the last position. bwt_from_sa on the same suffix array gives the same list.",
  ALLTXT, INF, ["src/core.rs: bwt_from_text_by_sa, bwt_from_sa"])
p("bwt_by_matrix_naive is the last column of the sorted rotation matrix",
  "For every text, bwt_by_matrix_naive returns the last letters of the lexicographically sorted list of all n rotations; it is a permutation of the text, and all rotations of a text have the same transform.",
  ALLTXT, INF, ["src/core.rs: bwt_by_matrix_naive"])
p("bwt_by_matrix agrees with the naive matrix BWT",
  "For every non-empty text without zero bytes bwt_by_matrix(text)=bwt_by_matrix_naive(text); on the empty text and on every text containing a zero byte it panics.",
  "every text, primitive or not, over every byte alphabet", INF + "; the tested alphabet is {1,2}", ["src/core.rs: bwt_by_matrix, bwt_by_matrix_naive"])
p("with a dollar both BWT definitions agree",
  "For every zero-free S and text = S followed by a zero byte, bwt_from_text_by_sa(text) = bwt_by_matrix_naive(text).",
  "every zero-free byte string", INF, ["src/core.rs: bwt_from_text_by_sa, bwt_by_matrix_naive", "src/bin/bwt.rs"])
p("the BWT is invertible",
  "If two texts of any lengths have the same matrix BWT they are rotations of each other; if two zero-free strings followed by a 0 byte have the same bwt_from_text_by_sa output the strings are equal.",
  "every pair of texts", "injectivity ranges over all pairs of texts", ["src/core.rs: bwt_by_matrix_naive, bwt_from_text_by_sa"])
p("the bijective BWT is a bijection",
  "For every non-empty text bbwt_naive succeeds and returns a permutation of the text, and two texts with the same bbwt_naive output are equal; the empty text panics.",
  "every pair of texts", "injectivity ranges over all pairs of texts; no test exists", ["src/core.rs: bbwt_naive"])
p("BBWT equals BWT on Lyndon words",
  "For every Lyndon word L, bbwt_naive(L) = bwt_by_matrix_naive(L).",
  "every Lyndon word", "infinite family", ["src/core.rs: bbwt_naive, bwt_by_matrix_naive", "src/unfinished/parallel.rs (TODO note)"])
p("LyndonWordGenerator enumerates exactly the Lyndon words in order",
  "For every length bound n>=1 and alphabet size 1<=sigma<=256, iterating LyndonWordGenerator::new(n,sigma) yields exactly the Lyndon words over {0..sigma-1} of length <= n, each once, in strictly increasing lexicographic order, then None forever; n=0 yields None at once.",
  "every n, every sigma, every point of the iteration history", "two unbounded parameters and a stateful history; no test exists", ["src/core.rs: LyndonWordGenerator::next", "src/bin/lyndonwords.rs"])
p("BinaryStringGenerator enumerates all binary strings of a length in lexicographic order",
  "Iterating BinaryStringGenerator::new(len) yields each of the 2^len binary strings of that length exactly once, in lexicographic order, and then stops (as its documentation says).",
  "every length and every point of the iteration", "the iterator is stateful and unbounded; no test exists", ["src/core.rs: BinaryStringGenerator::next"])
p("ConjugateIterator yields every rotation once, in order",
  "For every text of length n the iterator yields exactly text[i..]text[..i] for i=0..n-1 in this order and then None forever.",
  "every text and every iteration point", "unbounded texts, stateful history; no test exists", ["src/core.rs: ConjugateIterator::next"])
p("number_of_runs counts maximal runs of the bytes read",
  "For every reader, number_of_runs returns the number of maximal runs of equal bytes among the bytes delivered before the first end-of-file or error, 0 if there are none.",
  "every byte stream and every point at which the reader ends or fails", "unbounded streams and failure points", ["src/core.rs: number_of_runs", "src/io.rs: read_char", "src/bin/count_runs.rs"])
p("RandomStringGenerator yields sentinel-terminated strings",
  "For every end e and 1<=log_alphabet_size<=7, RandomStringGenerator::new(0..e,l) yields exactly ceil(e/2) strings and then None; each string ends with the byte 0 and all its other bytes lie in 1..=2^l.",
  "every range end, every alphabet parameter, every iteration", "every other test in the repository relies on this generator", ["src/core.rs: RandomStringGenerator::next"])
p("bit_size is the binary length",
  "For every usize i, bit_size(i) is the least b with i < 2^b (64 for values >= 2^63, 0 for 0).",
  "all 2^64 values", "2^64 inputs", ["src/core.rs: bit_size"])
p("move-to-front is losslessly decodable",
  "For every byte string, mtf produces one output byte per input byte and the standard move-to-front decoder recovers the input.",
  "every byte string over all 256 byte values", "tests use five literals", ["src/bin/mtf.rs: mtf, mtf_vector"])
p("run-length encoding is losslessly decodable or refused",
  "For every byte string, rle either panics, which happens exactly when a run other than the last has 256 or more bytes or the last run has more than 256, or writes pairs (c, len-1) that decode to the input.",
  "every byte string", "unbounded run lengths; no test exists", ["src/bin/rle.rs: rle"])
p("zero-run-length encoding keeps all information",
  "Two different inputs accepted by rle_zero never produce the same output.",
  "every pair of byte strings", "ranges over all pairs; no test exists", ["src/bin/rle.rs: rle_zero"])
p("human-readable run-length encoding is losslessly decodable or refused",
  "For every byte string, rle_text either panics, exactly when some run has 256 or more bytes, or writes one (c,len) group per maximal run, from which the input can be recovered.",
  "every byte string", "unbounded run lengths; no test exists", ["src/bin/rle.rs: rle_text"])
p("escape removes all --from symbols and is invertible",
  "For all option values accepted by the sanity checks, the output of escape over the processed prefix contains no --from symbol, and running escape again with --is-reversion recovers that prefix.",
  "every byte string, every accepted option combination", "options and inputs are unbounded; no test exists", ["src/bin/escape.rs: main"])
p("escape processes the whole input by default",
  "With the documented default (no --prefixlength given), escape transforms the whole input, as in the README pipeline `escape -f 0 -t 255 -e 254 | count_r`.",
  "every input", "no test exists; the README relies on it for every input", ["src/bin/escape.rs: main", "README.md"])
p("count_sigma counts distinct bytes",
  "For every byte string count_sigma returns the number of distinct byte values in it.",
  "every byte string, including those using all 256 values", "tests use four literals", ["src/bin/count_sigma.rs: count_sigma"])
p("reverse reverses and is an involution",
  "For every file content and prefix length p, reverse writes the first min(p,len) bytes (all if p=0) in reverse order; reversing twice restores them.",
  "every input and prefix length", "unbounded; no test exists", ["src/bin/reverse.rs: main", "src/io.rs: file2byte_vector"])
p("file and stdin input agree",
  "For every content and prefix length, file_or_stdin2byte_vector gives the same bytes whether the content comes from a file or from stdin.",
  "every content and prefix length", "ranges over all content lengths versus prefix lengths", ["src/io.rs: file2byte_vector, stdin2byte_vector, file_or_stdin2byte_vector"])
p("LZ77 factors decode to the text",
  "For every non-empty text, compute_lz77 on the structures count_z builds never panics and decode_lz77 of its factors is the text.",
  "every non-empty text, with or without sentinel", INF, ["src/bin/count_z.rs: compute_lz77, decode_lz77, main"])
p("LZ77 factors are the longest previous factors",
  "Every factor starting at position i has length equal to the longest l such that text[i..i+l) also starts at some position before i (a literal when this is 0), and its source is such an occurrence.",
  "every non-empty text", "tests check decodability, not maximality", ["src/bin/count_z.rs: compute_lz77"])
p("LZ77 greedy parsing is minimal",
  "No parsing of the text into literals and earlier-occurring (possibly overlapping) copies has fewer phrases than compute_lz77 returns.",
  "every text and every competing parsing", "quantifies over all competing parsings", ["src/bin/count_z.rs: compute_lz77"])
p("lexparse determines the text",
  "For every non-empty text, the factors computed by compute_lexparse cover the text and determine it: the text is the only string of its length consistent with the literals and copies.",
  "every non-empty text, with or without sentinel", "decodability needs acyclicity of the references for all texts; no test exists", ["src/bin/count_lexparse.rs: compute_lexparse, main", "src/core.rs: compute_phi, compute_plcp"])
p("mus reports exactly the minimal unique substrings",
  "For every zero-free S with a 0 sentinel appended, get_mus returns without panicking exactly the pairs (position,length) of the minimal unique substrings of S, by increasing position.",
  "every zero-free byte string", "tests only check Fibonacci words", ["src/bin/mus.rs: get_mus"])
p("the mus program reports the minimal unique substrings of its input",
  "For every non-empty input file, the mus program prints exactly the minimal unique substrings of the file content.",
  "every input", "the program (unlike its tests) never appends the sentinel", ["src/bin/mus.rs: main, get_mus"])
p("is_attractor decides string attractors",
  "For every non-empty zero-free S with sentinel appended and every set A of positions, is_attractor returns true iff every non-empty substring of S has an occurrence containing a position of A.",
  "every text and every position set", "2^n position sets for unbounded n; tests try two families", ["src/bin/is_stringattractor.rs: is_attractor, lcp_intervals"])
p("fibonacci_word is the k-th Fibonacci word",
  "For every k for which the length fits, fibonacci_word(k) does not panic and equals f_k with f_0=a, f_1=ab, f_{k+2}=f_{k+1}f_k; its length is fibonacci_number(k).",
  "every k", "tests stop at k=6 (content) and 15 (length)", ["src/word.rs: fibonacci_word, fibonacci_number_estimate"])
p("fibonacci_number is the Fibonacci recurrence or an overflow panic",
  "fibonacci_number(k) is the (k+2)-nd Fibonacci number for every k<=91 and panics on overflow (checked build) for every larger k.",
  "all 256 values of k", "tests stop at 10", ["src/word.rs: fibonacci_number"])
p("thuemorse_word is the Thue-Morse word",
  "For every k<64, thuemorse_word(k) has length 2^k and its i-th letter is a iff i has an even number of binary one digits; it equals the k-fold iteration of a->ab, b->ba on a.",
  "every k and every position", "tests stop at k=4", ["src/word.rs: thuemorse_word, thuemorse_morphism, iterate_2morphism"])
p("kolakoski_word is a self-describing prefix",
  "For every k, kolakoski_word(k) stays inside its buffer (the unsafe set_len is in bounds), and the run lengths of the result, reading a as 1 and b as 2, are a prefix of the result itself; the word starts with bb and successive words extend one another.",
  "every k", "tests compare with 105 letters", ["src/word.rs: kolakoski_word, kolakoski_length_estimate"])
p("period_doubling_word is the period-doubling word",
  "For every k<64, period_doubling_word(k) has length 2^k, equals the k-fold iteration of a->ab, b->aa on a, and letter i is a iff the exponent of 2 in i+1 is even.",
  "every k and every position", "tests stop at k=5", ["src/word.rs: period_doubling_word, iterate_2morphism"])
p("tribonacci_word / tribonacci_number follow the tribonacci recurrence",
  "For every k for which the length fits, tribonacci_word(k) equals t_k = t_{k-1}t_{k-2}t_{k-3} (t_0=a,t_1=ab,t_2=abac) and its length is tribonacci_number(k).",
  "every k", "tests stop at k=6 / 15", ["src/word.rs: tribonacci_word, tribonacci_number, iterate_general_morphism"])
p("vtm_word is the k-fold iterate of the ternary Thue-Morse morphism and is square-free",
  "For every k, vtm_word(k) is the k-fold iterate of a->abc, b->ac, c->b on a and contains no square.",
  "every k", "tests stop at k=4", ["src/word.rs: vtm_word, vtm_morphism, iterate_general_morphism"])
p("fibonacci_lyndonfactor is the k-th Lyndon factor of the infinite Fibonacci word",
  "For every k within range, the words fibonacci_lyndonfactor(0..k) are Lyndon, strictly decreasing, and their concatenation is a prefix of the infinite Fibonacci word.",
  "every k", "tests stop at k=2", ["src/word.rs: fibonacci_lyndonfactor, iterate_general_morphism_with_startsymbol"])
p("paperfolding_word is the regular paperfolding sequence",
  "For every i<63, paperfolding_word(i) has length 2^(i+1) and its letter at 1-based position 2^e*m (m odd) is 1 iff m = 1 mod 4; it never panics.",
  "every i and position", "tests check 99 letters", ["src/word.rs: paperfolding_word, quaternary_paperfolding_word, quaternary_to_binary"])
p("power2_sequence is the characteristic sequence of the powers of two",
  "For every k<64, power2_sequence(k) has length 2^k and its letter at 1-based position j is b iff j is a power of two, a otherwise.",
  "every k and position", "no test exists", ["src/word.rs: power2_sequence"])
p("binary_debruijn_word is a de Bruijn sequence",
  "For every k, binary_debruijn_word(k) has length 2^(k+1) and every binary string of length k+1 occurs exactly once in it read cyclically.",
  "every k", "the tests only check that no window repeats, never the length or that all windows occur", ["src/word.rs: binary_debruijn_word, is_necklace"])
p("is_necklace decides necklaces",
  "For every non-empty text, is_necklace(text) is true iff text is lexicographically smallest among its rotations.",
  "every non-empty text", "tests check twelve literals (one of them wrongly)", ["src/word.rs: is_necklace"])
p("enumerate prints every string exactly once in lexicographic order",
  "For every alphabet size 1..26 and lengths 1<=min<=max, enumerate prints, length by length, all alphabet_size^len strings exactly once in lexicographic order and terminates.",
  "every alphabet size and lengths", "exponentially many outputs for unbounded lengths; no test exists", ["src/bin/enumerate.rs: enumerate_for_length, main"])
p("generator_kmer yields every string exactly once",
  "The generator loop yields, for its length and alphabet size, every string over the alphabet exactly once.",
  "every length and alphabet size", "no test exists", ["src/bin/generator_kmer.rs: main", "src/bin/enumerate_lexparse.rs: main"])
p("kth_order_entropy is the empirical entropy",
  "For every zero-free S with sentinel, n=|text|>=2 and every k>=1, kth_order_entropy(text,k), read over the reals, is (1/n) * sum over contexts w of length k of |T_w| H0(T_w), where T_w lists the letters following w.",
  "every text and order", "unbounded; tests use unary and alternating texts", ["src/bin/entropy.rs: kth_order_entropy, zero_order_entropy"])
p("the two entropy programs agree",
  "For every zero-free S with sentinel and every order 1..7, entropy_via_kmer_counting and kth_order_entropy compute the same real number.",
  "every text and order", "unbounded", ["src/bin/entropy_kmer.rs: entropy_via_kmer_counting", "src/bin/entropy.rs: kth_order_entropy"])
p("randomstring respects the alphabet size",
  "For every random stream, if randomstring terminates it has written exactly prefixlength characters, using at most alphabet_size distinct ones when alphabet_size is not 0.",
  "every outcome of the random generator", "all random outcomes; no test exists", ["src/bin/randomstring.rs: main"])
p("the bwt program with --use-matrix works for every input",
  "For every non-empty zero-free input, bwt --use-matrix writes the matrix BWT of the (dollar-terminated) text.",
  "every input length", "the program switches algorithm at length 100; no test runs main", ["src/bin/bwt.rs: main", "src/bin/count_r.rs: main", "src/core.rs: bwt_by_matrix"])
p("the Lyndon factorization file reproduces the text",
  "For every non-empty text, the factors written by lyndonfactorization -o are, in order, the Lyndon factors of the text, omitting only a trailing NUL factor.",
  "every non-empty text", "no test runs main", ["src/bin/lyndonfactorization.rs: main"])
p("thuemorse_word is overlap-free",
  "No word returned by thuemorse_word contains an overlap, i.e. a factor c x c x c with c a letter and x a (possibly empty) word.",
  "every k and every factor", "exponentially many factors for every k; the repo has no such test", ["src/word.rs: thuemorse_word"])
p("the lyndonwords program prints all Lyndon words",
  "For every length >= 1 and alphabet size 1..159, lyndonwords prints exactly the Lyndon words of length at most the given length over the first letters from 'a', one per line, in strictly increasing lexicographic order, and terminates; for alphabet sizes 160..256 it panics.",
  "every length and alphabet size", "infinitely many parameters with exponentially many outputs; no test runs main", ["src/bin/lyndonwords.rs: main", "src/core.rs: LyndonWordGenerator"])
p("iterating a morphism",
  "iterate_general_morphism_with_startsymbol returns the k-fold image of the start word for every morphism; iterate_general_morphism returns the k-fold image of a whenever the image of a is a followed by a non-empty word and no image is empty (it panics for k>=2 if the image of a is a itself, although the documentation asks only for a as a prefix); iterate_2morphism returns the k-fold image of a, k<63, for every 2-uniform morphism with image ab for a (but, against its documentation, not for a -> ac). thuemorse_word and fibonacci_word equal the corresponding iterations for every k (up to 74 for Fibonacci).",
  "every morphism (a function), number of rounds and size hint", "infinitely many morphisms and rounds; the tests compare three words for small k", ["src/word.rs: iterate_general_morphism, iterate_general_morphism_with_startsymbol, iterate_2morphism, thuemorse_morphism, fibonacci_morphism"])
p("the word program writes the requested word or nothing",
  "For every word name and every k (a u8), the program word writes exactly the word the name describes, or it aborts without writing anything; for each name there is an explicit k up to which it writes and one from which it aborts.",
  "every name and k", "words of up to 2^62 letters; no test runs main", ["src/bin/word.rs: main, WordName", "src/word.rs: quaternary_paperfolding_word"])
p("Number of distinct Lyndon factors",
  "number_distinct_lyndon_factors(t) is 0 for the empty text; for every other t with Lyndon factorization f1 >= f2 >= ... it returns the number of distinct factors, except when f1 and f2 are different words of equal length that agree in all but their last letter (as in \"ba\"), where it returns one less. It never panics.",
  "all byte strings t",
  "the tests pin nine texts, none of which starts with two factors differing only in the last letter; the claim ranges over all texts",
  ["src/unfinished/parallel.rs: number_distinct_lyndon_factors", "src/core.rs: duval"])
p("Parallel statistics over Lyndon words are schedule independent",
  "For every thread count >= 1, every 1 <= p <= max and every interleaving of the worker threads of parallel.rs main: no worker panics, the workers cannot deadlock, every execution is bounded, and when all workers have been joined the total counter is the number of binary Lyndon words of length p and stats[r][b] is the number of those whose BWT has r runs and for which b is the least number of runs of the BBWT of a conjugate (capped by max).",
  "all schedules, thread counts, maximal and pattern lengths",
  "a test observes one interleaving for one length; the claim quantifies over all interleavings and lengths",
  ["src/unfinished/parallel.rs: main", "src/core.rs: LyndonWordGenerator, ConjugateIterator, bbwt_naive, bwt_by_matrix_naive, number_of_runs"])
p("max_lyndon_word: what it counts, and when it hangs",
  "For every interleaving of the workers of max_lyndon_word: no worker panics and every execution is bounded. When all workers finish, the word counters are the numbers of binary Lyndon words per length and the win/tie counters count exactly the conjugates whose BBWT has more/fewer/equally many runs than the BWT; the remembered text per length is empty exactly if no conjugate has fewer BBWT runs, otherwise it is a genuine such conjugate with its run counts, and with one worker it maximises the difference (with two workers it may not: a worse conjugate can overwrite a better one). The only way not to finish is one worker holding total_counter and waiting for num_lyndon_words while another holds num_lyndon_words and waits for total_counter, and with the constants of the program (length 40, every 10000 words, 4 workers) this deadlock is reachable.",
  "all schedules, thread counts, maximal lengths and output intervals",
  "deadlock and lost updates depend on the interleaving; no finite set of runs exhibits or excludes them",
  ["src/unfinished/parallel.rs: max_lyndon_word, second_criteria"])
p("Size-two attractor of Fibonacci words",
  "For every k from 2 to 74, if w is the k-th Fibonacci word and n the (k-1)-th Fibonacci number as the library computes them, then is_attractor on w followed by the 0 terminator answers true for the two positions n-1 and n-2, and answers false for every single position.",
  "all k with 2 <= k <= 74 or k = 76 (all k for which the word is generated), all correct suffix sorters",
  "the unit test checks k = 3..15 only, and only the positive answer; the claim is an infinite family about combinatorics on words combined with the checker",
  ["src/bin/is_stringattractor.rs: is_attractor, test_attractor_fibonacci_attractor", "src/word.rs: fibonacci_word, fibonacci_number"])
p("Minimal unique substrings of Fibonacci words",
  "For every k from 4 to 74, the minimal unique substrings computed for the k-th Fibonacci word followed by the 0 terminator are exactly two: (f(k-2)-1, f(k-3)) and (f(k-1)-1, f(k-2)) as (position, length), in this order, where f is fibonacci_number.",
  "all k with 4 <= k <= 74 or k = 76, all correct suffix sorters",
  "the unit test checks k = 4..15 only",
  ["src/bin/mus.rs: get_mus_from_text, test_mus_fibonacci", "src/word.rs: fibonacci_word, fibonacci_number"])
p("Size-two attractor of period-doubling words",
  "For every k from 3 to 62, is_attractor on the k-th period-doubling word followed by the 0 terminator answers true for the positions 3*2^(k-3)-1 and 3*2^(k-2)-1, and false for every single position.",
  "all k with 3 <= k <= 62, all correct suffix sorters",
  "the unit test checks k = 4..14 only",
  ["src/bin/is_stringattractor.rs: is_attractor, test_attractor_period_doubling", "src/word.rs: period_doubling_word"])
p("Closed-form entropies",
  "For a text that repeats a word u of pairwise different non-zero letters (cut anywhere), of length L, with the 0 terminator, both entropy programs compute for order k (1 <= k, k+|u| <= L; the k-mer program for k <= 7) the value (f lg((f+1)/f) + lg(f+1)) / (L+1) with f = floor((L-k)/|u|); the formulas of the unit tests for unary and (ab)^m texts are the cases |u| = 1, 2. The zero-order entropy is 0 for unary texts, is invariant under permuting the text and under repeating it.",
  "all words u of distinct letters, all lengths, all orders k, all correct suffix sorters, all hash-map iteration orders; real-number semantics of f64",
  "the unit tests evaluate the formulas for n = 40..44, k < 16 and (ab)^m with 8 <= m < 20 only",
  ["src/bin/entropy.rs: kth_order_entropy, zero_order_entropy, test_entropy", "src/bin/entropy_kmer.rs: entropy_via_kmer_counting, test_entropy"])
p("Entropy bounds and monotonicity in the order",
  "For every file without 0 bytes in the read prefix, the entropy program prints for orders j <= k values x, y with 0 <= y <= x <= lg(sigma), where sigma is the number of different bytes of the text including the terminator; the zero-order entropy of any byte sequence is between 0 and 8.",
  "all non-empty files without 0 byte, all prefix lengths, all orders j <= k, all correct suffix sorters; real-number semantics of f64",
  "an inequality over all texts and all orders (concavity of entropy)",
  ["src/bin/entropy.rs: main, kth_order_entropy, zero_order_entropy"])
p("count_lexparse computes the lexparse",
  "For every text with at least two different letters, count_lexparse's factors are the lexparse: going left to right, the factor at position i is the longest common prefix of suffix i with the largest smaller suffix (written as that suffix' position and the length), or a literal when that prefix is empty or suffix i is the smallest; the parse is unique. For every non-empty text, also with one letter only, the printed number of factors is the size of the lexparse. For texts with one letter the factor list is never the lexparse (the smallest suffix is written as a copy from the largest).",
  "all non-empty texts, all suffix sorters that are correct",
  "The predecessor is over all suffixes; tests check literal texts.",
  ["src/bin/count_lexparse.rs:compute_lexparse", "src/bin/count_lexparse.rs:main", "src/core.rs:compute_phi", "src/core.rs:compute_plcp"])
p("The lexparse is at most twice the number of BWT runs",
  "For every zero-free text s: count_lexparse on s with an end marker 0 finds at most r + sigma factors, where r is the number of runs count_r prints for s and sigma the number of different letters of s with the marker; and sigma <= r, so at most 2r.",
  "all zero-free file contents and prefix lengths, all correct suffix sorters",
  "A relation between the outputs of two programs over all texts.",
  ["src/bin/count_lexparse.rs:main", "src/bin/count_r.rs:main", "src/core.rs:bwt_from_text_by_sa"])
p("Factor ends are accepted as string attractors, and accepted attractors are large enough",
  "For every non-empty zero-free text s, the last positions of the factors computed by count_z, and those of the factors computed by count_lexparse, are accepted by is_stringattractor as an attractor of s. Conversely, whatever set is accepted has at least as many positions as s has different letters, and has a position inside every substring that occurs only once (so in every minimal unique substring).",
  "all non-empty zero-free texts (below 2^32 bytes for count_z), all accepted position sets",
  "Relates three programs on all texts; tests only know two families of words.",
  ["src/bin/is_stringattractor.rs:is_attractor", "src/bin/count_z.rs:compute_lz77", "src/bin/count_lexparse.rs:compute_lexparse"])
p("enumerate_lexparse prints the record holders of the lexparse spread",
  "For every word length n and alphabet size s (1 to 26, s^n below 2^64; the program has n = 32, s = 2), the program prints exactly one line for each word over the first s letters that no earlier word (first letter changing fastest) beats in the spread d = largest minus smallest lexparse size over all permutations of the alphabet applied to the word with end marker 0; the line shows d and two relabelled texts attaining the smallest and largest size. The printed d never decrease, the last is the maximum over all words, and every word attaining the maximum has a line. If s^n is 2^64 or more it panics.",
  "all lengths n, all alphabet sizes s <= 26, all correct suffix sorters",
  "Exhaustive search over s^n words times s! relabellings; there is no test, and with n = 32 the program does not finish.",
  ["src/bin/enumerate_lexparse.rs:main", "src/bin/enumerate_lexparse.rs:compute_lexparse", "src/word.rs:KmerWords"])
p("Exit status and reported lines of is_stringattractor",
  "For every non-empty zero-free ASCII file prefix s and position list A: the program exits with 1 and prints nothing if some position exceeds |s|; otherwise it exits with 0 and prints 'valid attractor' if A is a string attractor of s, and otherwise exits with 2 after printing 'substring .. not covered!' lines and 'not a valid attractor'. In that case at least one line is printed; if A is non-empty every word shown is a substring of s none of whose occurrences contains a position of A; and every uncovered substring has a prefix (of one of its occurrences) that is shown. With an empty A one of the words shown is the end marker, which s does not contain.",
  "all ASCII zero-free files, all prefix lengths, all position lists, all correct suffix sorters",
  "Quantifies over all substrings of all texts; the tests only look at the returned boolean.",
  ["src/bin/is_stringattractor.rs:main", "src/bin/is_stringattractor.rs:is_attractor"])
p("Pipelines of the programs, among them the one documented in README.md",
  "For every input: bwt | count_runs prints the number of runs that count_r prints, with the same options. escape -f 0 -t 255 -e 254 with a prefix length of at least the input length, piped into count_r, works for every byte string, reports the runs of the BWT of the escaped text, and the text can be unescaped. As documented in the README, without prefix length, the pipeline prints length 1 and 1 run whatever the input is. Without escape, count_r panics exactly on inputs with a 0 byte. bwt | mtf | rle is lossless whenever no program aborts.",
  "all byte strings, all prefix lengths, all correct suffix sorters, all chunkings of the pipes",
  "Composes several programs over all inputs; there is no test of any pipeline.",
  ["src/bin/bwt.rs:main", "src/bin/count_runs.rs:main", "src/bin/count_r.rs:main", "src/bin/escape.rs:main", "src/bin/mtf.rs:main", "src/bin/rle.rs:main", "README.md"])
p("The run-length encoder in a release build",
  "In a release build, where overflow wraps: rle aborts if and only if the length of some run other than the last is a multiple of 256, and otherwise writes for each run the letter and (length - 1) mod 256; rle --human never aborts and prints each length modulo 256; rle --onlyzero never aborts and drops a run of '0's whose length is a multiple of 256 altogether. Whenever a checked build outputs something, a release build outputs the same, and the output is decodable if all runs have at most 256 letters; but in general different inputs get the same output.",
  "all byte streams",
  "Quantifies over all run lengths; tests run with overflow checks on.",
  ["src/bin/rle.rs:rle", "src/bin/rle.rs:rle_text", "src/bin/rle.rs:rle_zero"])
p("count_sigma in a release build",
  "In a release build count_sigma never aborts and prints the number of different bytes if it is at most 255. If all 256 byte values occur it prints 0, or 1 if the byte that was the last to appear for the first time occurs again later.",
  "all byte strings",
  "The wrong answer needs all 256 byte values in some order; tests run with overflow checks on.",
  ["src/bin/count_sigma.rs:count_sigma", "src/bin/count_sigma.rs:main"])
p("The word program in a release build",
  "In a release build, for every name and every k below 256: whenever a checked build writes a word, a release build writes the same word. Fibonacci (k up to 254), FibonacciLyndonFactor, Tribonacci, Kolakoski, ThueMorse, BinaryDeBrujin and Vtm never write a wrong word. PaperFolding, QuaternaryPaperFolding, Power2 and PeriodDoubling silently take k modulo 64 (PeriodDoubling aborts for positive multiples of 64), so they write words that are not the documented ones; the Fibonacci word of order 255 is 'a'. fibonacci_number and tribonacci_number are the right numbers modulo 2^64, except that fibonacci_number(255) is 1.",
  "all word names, all k of type u8",
  "Depends on wrapping arithmetic and on buffers of up to 2^63 bytes, which no test allocates.",
  ["src/word.rs:fibonacci_word", "src/word.rs:power2_sequence", "src/word.rs:quaternary_paperfolding_word", "src/word.rs:iterate_2morphism", "src/word.rs:vtm_word", "src/word.rs:tribonacci_number", "src/bin/word.rs:main"])
p("mtf, rle and escape are prefix-consistent at every crash point",
  "Run with an output different from the input, mtf, rle (all three modes) and escape change nothing but the output (all other files and, with -o, the standard output stay as they were). Whenever the program is killed, panics, or an open, read or write fails, the output still has its old contents or is the beginning of the output for a beginning of the input: for mtf it decodes to a prefix of the input, for rle it does so after dropping at most one dangling byte, for escape after dropping at most one dangling escape symbol. At a normal end it is the complete output for a prefix of the input, and for the whole input if no access failed; a read error counts as end of input, so a normal end does not imply that the whole input was processed.",
  "every input text, every pair of different input and output (file or standard stream), every reachable configuration under every pattern of failing opens, reads and byte-wise partial writes",
  "crash points and failing accesses between any two bytes; every file content",
  ["src/bin/mtf.rs: mtf, main", "src/bin/rle.rs: rle, rle_zero, rle_text, main", "src/bin/escape.rs: main", "src/io.rs: stream_or_stdin, stream_or_stdout, read_char"])
p("which programs can be run in place",
  "If input and output are the same file, mtf, rle, escape and reverse destroy it: in every reachable configuration the file is untouched or empty, no byte is ever written, and a normal end leaves it empty. bwt, count_z, count_lexparse and lyndonfactorization read everything before they create the output, so in place they replace the file by the same result as with a separate output.",
  "every file content, every option value, every reachable configuration with failing accesses",
  "every file content and crash point; unit tests of the functions never open files",
  ["src/bin/mtf.rs: main", "src/bin/rle.rs: main", "src/bin/escape.rs: main", "src/bin/reverse.rs: main", "src/bin/bwt.rs: main", "src/bin/count_z.rs: main", "src/bin/count_lexparse.rs: main", "src/bin/lyndonfactorization.rs: main"])
p("what failed runs do to an old output file",
  "bwt, count_z, count_lexparse and lyndonfactorization create the output file only after the result has been computed: if computing fails the old output survives, and at every crash point the output is the old one or a beginning of the complete new one; for bwt, count_z and count_lexparse a normal end means that it is complete, for lyndonfactorization (whose buffer is flushed by drop, ignoring errors) not. Without -o the last three touch no file. reverse, word, mtf, rle and escape have already emptied an existing output file when they fail because of rejected arguments, a missing or too short input or an overflow; only escape with a missing input leaves it alone.",
  "every input, option value and old output, every reachable configuration with failing accesses",
  "every crash point and failure pattern",
  ["src/bin/bwt.rs: main", "src/bin/count_z.rs: main", "src/bin/count_lexparse.rs: main", "src/bin/lyndonfactorization.rs: main", "src/bin/reverse.rs: main", "src/bin/word.rs: main", "src/bin/escape.rs: main"])
p("factor files are uniquely readable and lossless",
  "The file written by count_z and count_lexparse is a sequence of (pos,len) in decimal that can be read back in exactly one way. Two inputs (up to the prefix length) for which count_z ends normally with the same file are equal; the same holds for count_lexparse if one of the texts has two different letters, and fails for unary texts.",
  "every pair of input files and prefix lengths, every execution ending normally, every correct suffix array oracle",
  "quantifies over pairs of inputs",
  ["src/bin/count_z.rs: main", "src/bin/count_lexparse.rs: main"])
p("On the smallest rotation all transforms agree",
  "For every non-empty text T, let L be the rotation of T starting at the position lyndon_conjugate returns. The matrix BWT of T, the matrix BWT of L, the bijective BWT of L and the suffix-array BWT of L are one and the same byte string; if T has no zero byte, the program's suffix-array BWT of L followed by a zero terminator is that string with one zero inserted. Conversely bbwt and matrix BWT of a non-empty text agree only if the text is its own smallest rotation. For a primitive T, the Lyndon factor of TT that spans the border between the two copies is L, at the position lyndon_conjugate returns (this is the closing remark of parallel.rs; for a non-primitive T such as abab no factor of TT has the length of T).",
  "all non-empty byte strings T; all suffix sorters meeting their specification",
  "the agreement is a statement about all texts, including powers of shorter words, where sorting has ties; tests cover a few short words",
  ["src/core.rs: lyndon_conjugate, bbwt_naive, bwt_by_matrix_naive, bwt_from_sa, bwt_from_text_by_sa", "src/unfinished/parallel.rs: closing TODO comment"])
p("probe_main lists exactly the unbeaten Lyndon words",
  "probe_main prints, in lexicographic order, one line for exactly those binary Lyndon words w of length at most MAX_LENGTH whose BWT has at least the threshold number of runs (10 in the program) and none of whose conjugates has a bijective BWT with fewer runs than the BWT of w; no assertion fails. The line always reads text=w conj=w rbwt=r rbbwt=r with r the number of runs of the BWT of w: the conjugate and the number reported as best are never anything else.",
  "all maximum lengths >= 1 and all thresholds (the program uses 16 and 10)",
  "the list ranges over all Lyndon words and all their conjugates; that the two printed words coincide depends on BWT = BBWT for Lyndon words and on the order of the conjugates",
  ["src/unfinished/parallel.rs: probe_main, binary_vector_to_str"])
p("A worker prints exactly the conjugates with few runs",
  "For every word w of length at most MAX_LENGTH a worker of main prints, in the order of their starting positions, one line for exactly those conjugates of w whose bijective BWT has at most one run more than the reported number of Lyndon factors (C65), giving the bijective BWT, the conjugate, the number of runs and the reported number of factors; the pair of numbers it then records is unaffected by the printing.",
  "all non-empty words up to the maximum length",
  "concerns every conjugate of every word",
  ["src/unfinished/parallel.rs: main (worker loop), number_distinct_lyndon_factors, binary_vector_to_str"])
p("The printed statistics table is aligned, complete and triangular",
  "Whatever the schedule and number of workers, for every pattern length below MAX_LENGTH (at most 100; the program uses 24) the table main prints after joining its workers consists of the length line, the total line, a header and one line for each number of BWT runs 1..MAX_LENGTH-1. All lines of the table have the same column width; the cell in row r and column b is the number of binary Lyndon words of that length whose BWT has r runs and whose best conjugate has a bijective BWT with b runs; the cells add up to the printed total, which is the number of binary Lyndon words of that length; cells with b > r are zero, and for lengths of at least 2 all rows with odd r are zero.",
  "all schedules, all numbers of worker threads >= 1, all maximum lengths <= 100 and all pattern lengths below it",
  "quantifies over schedules; completeness of the table needs that every word falls into a printed cell",
  ["src/unfinished/parallel.rs: main (table printing)"])
p("The BWT of a Fibonacci word has exactly two runs, whatever its rotation",
  "For every k from 2 to 74 and for k = 76, let w be the k-th Fibonacci word. The matrix BWT (bwt_by_matrix_naive and bwt_by_matrix) of w, and of every rotation of w, is b^n2 a^n1, where n1 and n2 are fibonacci_number(k-1) and fibonacci_number(k-2); the programs bwt and count_r with --matrix and without dollar therefore write this string and print its length and 2.",
  "every index k for which the word is generated, every rotation, every correct suffix sorter",
  "The number of words and their lengths (up to 10^15) are out of reach; the claim needs the structure of the words.",
  ["src/word.rs: fibonacci_word, fibonacci_number", "src/core.rs: bwt_by_matrix_naive, bwt_by_matrix", "src/bin/count_r.rs: main", "src/bin/bwt.rs: main"])
p("Suffix-array BWT of Fibonacci words: two runs for even indices, four with the end marker, more for odd indices",
  "For every even k from 2 to 74 and k = 76 the suffix-array BWT (bwt_from_text_by_sa) of the k-th Fibonacci word is b^n2 a^n1 (n1, n2 as in the previous claim), so count_r without dollar prints 2 runs; with the end marker appended (the default of bwt and count_r) it is a b^n2 0 a^(n1-1), 4 runs. For every odd k from 3 to 73 the suffix-array BWT has at least three runs. The comment of the unit test (two runs only for even indices) fails for k = 1, where there are two runs as well.",
  "every index k for which the word is generated, every correct suffix sorter",
  "The unit test checks the seven even indices 2..14; the claim is about all of them and about the odd ones.",
  ["src/tests/core_test.rs: test_bwt_from_text_by_sa", "src/core.rs: bwt_from_text_by_sa", "src/word.rs: fibonacci_word", "src/bin/count_r.rs: main"])
p("Order-0 entropy in floating point",
  "The zero-order entropy that the entropy program computes in f64 arithmetic is a finite, non-negative number (never NaN or infinite) for every non-empty byte sequence of up to 2^50 bytes; if f64::log2 has relative error at most delta it differs from the mathematical H0 by at most 2(delta + 258 * 2^-53) H0 + 6 * 2^-53 (below 2^-40 bits for a correctly rounded logarithm), and it is exactly 0 if and only if H0 is 0.",
  "every byte sequence (and file contents/prefix length) of at most 2^50 bytes; every logarithm function with relative error at most delta <= 1/4, including a correctly rounded one",
  "Unit tests compare a few texts against a tolerance of a few EPSILON; the accumulated rounding error, overflow and NaN-freedom have to be bounded for every distribution of counters.",
  ["src/bin/entropy.rs: zero_order_entropy, main"])
p("k-th order entropy in floating point",
  "For every text without zero bytes, with the terminator n <= 2^50 bytes, and every order k >= 1, the value that the entropy program prints is a finite, non-negative f64 that differs from the mathematical k-th order empirical entropy Hk by at most 2(delta + (n+260) 2^-53) Hk + 6 * 2^-53, delta being the relative error of f64::log2; it is exactly 0 if and only if Hk is 0.",
  "every zero-free text and prefix length, every order, every suffix sorting routine that returns the suffix array, every logarithm function with relative error at most delta <= 1/4",
  "The number of floating point additions depends on the text; a test only sees the rounding error of its own few inputs.",
  ["src/bin/entropy.rs: kth_order_entropy, compute_context, main"])
p("k-mer entropy in floating point, in every hash order",
  "Whatever order the two hash maps are iterated in, the k-mer counting program returns a finite f64 that differs from Hk by at most 4(delta + (n+3) 2^-53) log2 n; hence it and the suffix-array program print numbers that differ by at most the sum of the two bounds. (Cancellation makes its error proportional to log2 n, not to Hk.)",
  "every zero-free text with terminator of n <= 2^50 bytes, every order 1 <= k <= min(7, n), every pair of iteration orders of the hash maps, every logarithm function with relative error at most delta <= 1/4",
  "The hash maps are randomly seeded: each run adds the terms in another order, so a test observes one rounding pattern out of many.",
  ["src/bin/entropy_kmer.rs: entropy_via_kmer_counting, main", "src/bin/entropy.rs: kth_order_entropy"])
p("Panics of the entropy programs do not depend on the arithmetic",
  "For all inputs the entropy programs end (normally or by panic) in the same way whatever the floating point arithmetic does; over exact real numbers they compute exactly the values of C56/C57. In f64: the k-mer program panics for order 0 and orders above 7, the suffix-array program panics for k >= 1 when the text contains a zero byte.",
  "every implementation of the arithmetic operations and of log2, every file content, prefix length, order, suffix sorting routine and hash order",
  "No test can range over arithmetics, or establish the absence of NaN-dependent control flow.",
  ["src/bin/entropy.rs: main", "src/bin/entropy_kmer.rs: main"])
p("The RESULT lines can be read as key=value fields and show the right values",
  "Each of count_sigma, count_z, count_lexparse, count_r, lyndonfactorization, entropy and entropy_kmer prints, when it does not panic, one line consisting of the word RESULT and blank-separated key=value fields, provided the name of the input contains no blank or line break and is not empty; the fields can be recovered in one way only. Their values are, in decimal: sigma the number of different bytes read; factors the smallest number of LZ77 phrases, the size of the lexparse, or the number of Lyndon factors; bwt_runs the number of runs of the transform that bwt writes with the same options; length the number of bytes read (count_sigma, count_z, count_lexparse), that number with the appended end marker (count_r by default, entropy, entropy_kmer). The naive claim fails twice: lyndonfactorization shows the option --prefixlength as length, which is 0 for a whole file; a file name with a blank can destroy the line or add a second, false field.",
  "every input, from file or standard input, every prefix length and option, every measured time, every suffix sorter and every formatting of floating-point numbers without blanks",
  "README.md promises a machine-readable format (sqlplot); a test compares one line, but that every line has exactly one reading and that the values are right quantifies over all texts, times and file names",
  ["src/bin/count_sigma.rs main", "src/bin/count_z.rs main", "src/bin/count_lexparse.rs main", "src/bin/count_r.rs main", "src/bin/lyndonfactorization.rs main", "src/bin/entropy.rs main", "src/bin/entropy_kmer.rs main", "src/core.rs get_filename"])
p("The line printed by mus determines its list, but is not a list of fields",
  "When it does not panic, mus prints one line showing the name of the input, the number of bytes read and the list of the substrings as [(start, length), (start, length), ...]; from the line the name (if it contains no blank), the length and the list can be recovered in one way only. The claim of README.md that the output is compatible with sqlplot fails for every input that has something to report: the blanks inside the list split it into words that are no key=value fields. When the computation panics nothing is printed.",
  "every input, from file or standard input, every prefix length, every measured time, every suffix sorter",
  "unique readability and its failure as a list of fields are statements about all lists of pairs",
  ["src/bin/mus.rs main"])
p("is_stringattractor on texts with bytes above 127",
  "For every non-empty zero-free file prefix s with arbitrary other bytes and all positions at most |s|: if A is a string attractor, the program prints 'valid attractor' and exits with 0. Otherwise it reports exactly the uncovered substrings whose longest proper prefix is empty or continues in two ways in s (plus the end marker if A is empty) and exits with 2 - provided that each of these words is well-formed UTF-8 by itself; if one of them is not, the program panics. In particular it panics as soon as some byte above 127 occurs in s at no position of A, even if s itself is well-formed UTF-8, so 'the program judges every candidate set' fails for non-ASCII texts.",
  "all zero-free byte strings, prefix lengths, position lists, correct suffix sorters",
  "which words are cut out of a multi-byte character depends on the whole text and the whole set; the tests use ASCII only",
  ["src/bin/is_stringattractor.rs:main", "src/bin/is_stringattractor.rs:is_attractor"])
p("is_stringattractor outside its domain: zero bytes, empty texts, positions behind the text",
  "For every file: if some given position is larger than the length of the prefix read, the program prints nothing and exits with 1, whatever the text. Otherwise, if the prefix contains a zero byte, it panics for every set of positions - also for sets that are string attractors, so 'every attractor is accepted' fails for binary texts. On an empty file it reports the end marker and exits with 2 if no position is given, and accepts if only the position 0 is given.",
  "all files, prefix lengths, position lists, correct suffix sorters",
  "the panic is an internal assertion about the branching structure of the text, reached for every text with a zero byte anywhere",
  ["src/bin/is_stringattractor.rs:main", "src/bin/is_stringattractor.rs:lcp_intervals", "src/bin/is_stringattractor.rs:is_attractor"])
p("max_lyndon_word: its status messages",
  "For every maximal length, every interval q >= 1, every number of workers and every schedule, each message printed while the search runs shows a total that is a positive multiple of q, and the totals never decrease. The numbers of words per length add up to the total; the words counted are the lexicographically first Lyndon words, and every counter (words, wins of the BWT, wins of the bijective BWT, ties) is the exact number for the words handed out so far up to what at most threads-1 busy workers still have to add. A conjugate shown as the best is a real one with the run counts shown and fewer runs in the bijective BWT. After a panic of a worker nothing more is printed. The label 'length=k' stands in front of the numbers for the length k+1; a multiple of q can be passed without a message and can be announced twice.",
  "all maximal lengths, intervals, first labels, numbers of workers, schedules",
  "the messages are made of counters that other workers update at the same time: what they show depends on the interleaving",
  ["src/unfinished/parallel.rs:max_lyndon_word"])
p("The linear-time functions need a linear number of steps",
  "On every input of length n, counting every iteration of every loop: duval at most 4n+1, isa_lyndon_factorization n, lyndon_conjugate 12n+1, border_array and is_primitive 4n, compute_psv and compute_nsv 4n (fewer than 2^32 entries, any table), compute_phi, inverse_permutation and compute_lcp 2n, compute_plcp 5n (any table phi), the tree of LCP intervals of is_stringattractor 9n+4, each call of LyndonWordGenerator::next 2n+2. Without suffix sorting (and range minimum queries), count_lexparse needs 8n+1, count_z 24n+1 and mus 12n. The counted functions return the same values and panic on the same inputs as the functions themselves.",
  "all texts, tables and generator states",
  "a bound on the running time is about all inputs; the inner loops are not bounded by a constant, only their sum is",
  ["src/core.rs: duval, lyndon_conjugate, border_array, compute_psv, compute_nsv, compute_plcp, LyndonWordGenerator", "src/bin/count_z.rs", "src/bin/count_lexparse.rs", "src/bin/mus.rs", "src/bin/is_stringattractor.rs: lcp_intervals"])
p("Results do not depend on how the standard library sorts",
  "bwt_by_matrix_naive, bbwt_naive and suffixarray_naive return the same vector whatever correct sorting procedure slice::sort_by is, even one that is not stable, although equal rotations and equal conjugates can be ordered in several ways. What enumerate_lexparse prints is the same for every stable sorting procedure, and does differ for some correct unstable one.",
  "all texts and all sorting procedures that return a sorted permutation whenever the comparator is a total preorder on the elements (for enumerate_lexparse: that also keep the order of equal elements)",
  "A test run uses the one sorting algorithm of the installed standard library on a few texts; the claim ranges over all algorithms and all texts.",
  ["src/core.rs: bwt_by_matrix_naive, bbwt_naive, suffixarray_naive", "src/bin/enumerate_lexparse.rs: main"])
p("String generators and lyndonwords in a release build",
  "In a release build (arithmetic wraps) BinaryStringGenerator, LyndonWordGenerator, RandomStringGenerator and lyndonwords yield the same as in a checked build as long as the latter does not panic. Beyond: BinaryStringGenerator of any length sets letter i to bit i mod 64 of the number of the call, so that for lengths above 64 'every binary string is yielded' fails; LyndonWordGenerator with alphabet size 0 or above 256 yields the same endless sequence 0, 0..01, 0..02, ... with wrapping last letter, which contains words that are no Lyndon words; lyndonwords prints one line per Lyndon word for every alphabet of 1..256 letters, but with 170 letters or more the wrapped letter codes include the newline, so there are more newlines than words; RandomStringGenerator never ends once its counter has reached 2^63 and repeats one string of 128 letters forever when its counter has reached the end; with letters of more than 64 bits it yields only the sentinel.",
  "all lengths, alphabet sizes, generator states and numbers of calls (below 2^64)",
  "cargo test runs with overflow checks; the wrapping behaviour concerns states reached after 2^63 calls or lengths beyond any test",
  ["src/core.rs: BinaryStringGenerator, LyndonWordGenerator, RandomStringGenerator", "src/bin/lyndonwords.rs: main"])
p("The debug-only self checks never fire",
  "count_z, count_lexparse, mus, is_stringattractor and lyndonfactorization (with debug logging) print the same and panic on the same inputs whether they are built with debug assertions or without: no debug_assert of these programs, and none of the checks in blocks that exist only in debug builds, can fail. The library functions compute_plcp and compute_lcp with a table of a wrong length differ: the checked build always panics; the release build panics if the table is too short and silently ignores the surplus if it is too long.",
  "all inputs and options (count_z: byte texts shorter than 2^32), all suffix sorters, all texts and tables for the library functions",
  "a test run shows that the checks hold for its own texts; that they hold always is a correctness proof of the algorithms",
  ["src/core.rs: compute_plcp, compute_lcp", "src/bin/count_z.rs: compute_lz77, main", "src/bin/is_stringattractor.rs: lcp_intervals", "src/bin/lyndonfactorization.rs: main", "src/bin/mus.rs", "src/bin/count_lexparse.rs"])
p("Exact compressed sizes of the Fibonacci words",
  "For the words that the fibonacci generator writes, the counting programs print closed formulas: count_z finds exactly k+1 factors on the k-th word (two literals, one copy of length 1, copies whose lengths are the lengths of the words of index 2 to k-2, and one final copy of length 2); count_lexparse finds exactly four factors on every word of even index k >= 4 (two copies and two literals); count_r by suffix array finds exactly k-1 runs on a word of odd index k >= 5 without the terminator and k runs with it (index 3 is an exception with four runs in both variants), while even indices have 2 and 4 runs.",
  "all indices k (up to the limits of the generator and of the 32-bit tables) and all correct suffix sorters",
  "a test computes the counts for a few small indices; that the formulas continue to hold needs the combinatorics of the words",
  ["src/word.rs: fibonacci_word", "src/bin/count_z.rs: main", "src/bin/count_lexparse.rs: main", "src/bin/count_r.rs: main", "src/tests/core_test.rs"])
p("Time of a whole run of the Lyndon word generator",
  "Running LyndonWordGenerator::new(n, sigma) until it returns None takes exactly 2(n+1)A + 1 - S steps (loop iterations, the failing test of each loop included, plus the lengths of the cloned words), where A is the number of Lyndon words of length at most n over sigma letters and S the sum of their lengths. For sigma >= 2 all the steps other than cloning add up to at most 8A + 1, so the claim in the doc comment (constant average time per generated word) holds for finding the words; but since S >= (n-3)A, cloning each word out makes the average at least n - 3, so no constant bounds it as the function is written. Over one letter there is a single word and the run takes 2n + 2 steps.",
  "every n >= 1 and every alphabet size from 1 to 256 (from 2 for the average)",
  "It is an amortised bound over all runs of unbounded length; a test measures a few sizes and cannot separate a constant from a slowly growing average.",
  ["src/core.rs: LyndonWordGenerator::next (doc comment lines 446-451)"])
p("Interrupted word generators leave a beginning of the list",
  "lyndonwords, randomstring, enumerate, generator_kmer and enumerate_lexparse can be killed at any moment, and any write can fail. Whatever happens, no file but the output is changed. The output of lyndonwords (file or standard output) holds its old contents (before it is created) or a beginning of the list of all Lyndon words of length at most n over the first s letters in lexicographic order, one per line; the standard output of enumerate, generator_kmer and enumerate_lexparse holds a beginning of the complete list (all words in length-lexicographic order; all k-mers; the lines of all records). The complete lines are therefore the first words of the list, followed by a beginning of the next word. A normal end (exit status 0) means that the complete list has been written; without failures and with enough time the list is completed. enumerate ends with status 1 and prints nothing exactly for invalid arguments. With 160 to 256 letters lyndonwords never ends normally: it panics after 159 words (a, a..ab, ..., a..a followed by the byte 255) and the old output file is lost. The file of randomstring holds at every moment at most the requested number of sampled letters with at most the requested number of distinct ones, a beginning of the final text, and at the normal end all of it; on the standard output it is a beginning of the text, and a normal end does NOT mean that it is complete (no newline and no flush: errors at exit are ignored).",
  "all option values in the stated ranges, all sequences of random samples, all initial contents of the file system, all points where the program is killed and all failing writes",
  "killing a program at every possible moment and making every write fail cannot be tested; enumerate_lexparse with its constants never ends in practice, so that every observed output is an interrupted one",
  ["src/bin/lyndonwords.rs: main", "src/bin/randomstring.rs: main", "src/bin/enumerate.rs: enumerate_for_length, main", "src/bin/generator_kmer.rs: main", "src/bin/enumerate_lexparse.rs: main", "src/io.rs: stream_or_stdout"])
p("Renaming the letters of a text",
  "If the letters of a text are renamed so that their order is kept, then the suffix array, the Lyndon factorization (duval), the smallest rotation (lyndon_conjugate) and every answer of is_necklace stay the same, and the BWT, the bijective BWT, the lexparse and the LZ77 factorization of the new text are those of the old text with the letters renamed; the bwt program (with end marker, which keeps the value 0) writes the renamed bytes and count_r prints the same numbers. If the renaming only keeps different letters different, the border array, the primitivity answer, the lengths of the LZ77 factors, the list printed by mus, the sets accepted by is_stringattractor and the (real) empirical entropies of every order stay the same; the number of BWT runs, the size of the lexparse and the Lyndon factorization need not.",
  "all texts, all renamings of their letters that keep the order (or only the difference) of the letters, all oracles for the suffix sorter",
  "A test fixes one renaming of one text.",
  ["src/core.rs:duval", "src/core.rs:lyndon_conjugate", "src/core.rs:border_array", "src/core.rs:bwt_by_matrix_naive", "src/core.rs:bbwt_naive", "src/word.rs:is_necklace", "src/bin/count_z.rs:compute_lz77", "src/bin/count_lexparse.rs:compute_lexparse", "src/bin/mus.rs:get_mus", "src/bin/is_stringattractor.rs:is_attractor", "src/bin/count_r.rs:main"])
p("LZ77 factor counts of related texts",
  "For non-empty byte texts shorter than 2^32: continuing a text never decreases the number of factors computed by count_z, and keeps the lengths of all its factors but the last; the count of a concatenation is at most the sum of the two counts; repeating a text any number of times costs at most one more factor; removing the first letter at most doubles the count (z(t) <= 2 z(ct) - 2) and putting a letter in front adds at most one; changing a single byte gives at most 3z + 2 factors. Suffixes and reversals may need more factors, and the numbers printed by count_r and count_lexparse are neither monotone in prefixes nor subadditive.",
  "all byte texts, continuations, repetition counts, first letters, changed positions and replaced blocks; all oracles for the suffix sorter",
  "A test compares the counts of a few pairs of texts.",
  ["src/bin/count_z.rs:compute_lz77", "src/bin/count_z.rs:main", "src/bin/count_r.rs:main", "src/bin/count_lexparse.rs:main"])
p("Exact matrix BWT of the Thue-Morse, period-doubling and ternary Thue-Morse words",
  "For the words the generators write, the matrix Burrows-Wheeler transform (naive, fast and through the bwt/count_r programs with --matrix and no dollar) is known exactly, and is the same for every rotation of the word. Thue-Morse: the transform of word k+1 is b repeated 2^(k-1) times, then the transform of word k with a and b exchanged, then a repeated 2^(k-1) times; count_r reports exactly 2k runs for k >= 1. Period doubling: if the transform of word k is p followed by m copies of a (m the number of b's of the word), that of word k+1 is b^m a^m, then the reversal of p with a and b exchanged, then |p| copies of a; count_r reports exactly 2k-2 runs for k >= 2. Ternary Thue-Morse: the transform of word k+1 is the transform of word k with c replaced by b and everything else by c, then one a per a of word k, then the transform of word k without its c's and with a and b exchanged; count_r reports exactly 2k+1 runs for k >= 1.",
  "every generator parameter in the accepted range (k < 63, or k <= 29 for the ternary word), every rotation of the word, every correct suffix sorter",
  "the words have up to 2^62 letters; a test can only compare the transforms of the first few",
  ["src/core.rs: bwt_by_matrix, bwt_by_matrix_naive", "src/word.rs: thuemorse_word, period_doubling_word, vtm_word", "src/bin/count_r.rs: main", "src/bin/bwt.rs: main"])

p("the command line language of the programs",
  "For each of the 17 programs built with derived option tables and different names, a command line is accepted exactly when it is a sequence of correct uses of the listed options (long with a separate value or =value; letters grouped, the last one with a separate, attached or =value; an optional final --), every value readable in the option's type (decimal with optional plus and range check), no single-valued option twice, all required options present, and no help or version asked for. Every option then has exactly the values given, in order of the uses; spelling and order of the options do not matter. Behind correct uses --help/-h and --version/-V show the help whatever follows, and an unlisted option is refused whatever follows. A build of rle with debug assertions panics on every command line (two options are called -o); without them it reads -o as the output file and -h as --human.",
  "all programs, all command lines (lists of arguments), all spellings and orders of options",
  "there are infinitely many command lines; the repository has no test of any argument",
  ["src/bin/*.rs: struct Args", "src/bin/rle.rs: Args", "src/bin/enumerate.rs: main"])
p("every program runs with the values of its command line, and only with a correct one",
  "For every program: a correct use of its options runs the program with exactly the given input and output files, prefix length, order, switches, symbol lists, attractor, word name and parameter (or the documented defaults); every other command line runs nothing (usage message or help, no file opened). enumerate accepts exactly two or three decimal numbers, with at most one -- among them. Release builds of rle write the code of the runs to the output file or leave a beginning of the code of a beginning of the input when interrupted; debug builds of rle panic on every command line before opening a file. The escape and word command lines of the README do what it says; its count_sigma --file is always refused, and so is every list of symbols with a comma, although the help of escape asks for commas.",
  "all command lines, all mappings of names to files, all inputs",
  "the mapping from arguments to behaviour must be right for every combination of options and values",
  ["src/bin/*.rs: main", "src/bin/escape.rs: Args, main", "src/bin/word.rs: main", "src/bin/enumerate.rs: main", "src/bin/rle.rs: main", "README.md"])
p("gen_artificial.sh writes the first 21 words of ten families",
  "gen_artificial.sh FOLDER ends without error and then FOLDER/NAME.KK holds, for each of its ten families NAME and each k = 0..20 (two digits KK), the k-th word of that family as described for the program word (Fibonacci, Tribonacci, Kolakoski, Thue-Morse, ...); the 210 file names differ and no other file changes. If the script is interrupted or any access fails at any point, every file is either as before or one of these 210 files holding a beginning of its word.",
  "all folders, all file systems, all points of interruption and all patterns of failing accesses",
  "a test runs the script once, on one folder, to the end; it does not see the states in between nor the other files",
  ["gen_artificial.sh", "src/bin/word.rs: main", "src/core.rs"])
p("compute_stats.sh and the RESULT lines",
  "The patterns compute_stats.sh uses find the value of a field in every RESULT line in which the key occurs once (and is not last, where the pattern asks for a blank behind). Yet the script as it stands prints a row without any number for every file: it calls the programs with options they do not have (--input, -d), so all of them refuse. With -i instead the row would be length, number of different bytes, runs of the BWT, LZ77 factors and the entropies of order 0 to 4 of the file, with the columns headed z and r swapped; names with blanks can mislead the patterns.",
  "all files and file names, all RESULT lines, all measured times",
  "the scripts are not tested at all, and a run on one file shows one row only",
  ["compute_stats.sh", "src/bin/count_sigma.rs: main", "src/bin/count_r.rs: main", "src/bin/count_z.rs: main", "src/bin/entropy.rs: main"])
p("From the command line to the files and back",
  "Started from the shell, with the options written in any accepted way (separate or attached values, long or short names, combined letters, any order): reverse -i F -o G leaves in G the reversal of F and changes nothing else, and doing it again from G to H restores the text of F. word -n NAME -k K -o F leaves the word NAME of order K in F. escape and then escape --is-reversion with the same -e, -f, -t and a -p covering the file restore the file, and the file in between contains none of the escaped symbols. bwt -i F -o G leaves in G the Burrows-Wheeler transform of the text followed by an end marker, if the text has no zero byte; mtf leaves the code whose decoding is the text, if it has no byte 255. After word -n thue-morse / period-doubling / vtm -k K -o F, count_r -un -i F reports 2K / 2K-2 / 2K+1 runs; after word -n fibonacci -k K -o F (K up to 45) count_z -i F reports K+1 factors. After bwt -i F -o G, count_runs -i G prints the number of runs that count_r -i F reports for the same -p, -u and -n.",
  "all spellings of the command lines, all file systems, file names, texts, settings and orders within the ranges given",
  "A test runs one command line on one file; the composition has to be right for all spellings, names, contents and orders.",
  ["src/bin/reverse.rs:main", "src/bin/word.rs:main", "src/bin/escape.rs:main", "src/bin/bwt.rs:main", "src/bin/mtf.rs:main", "src/bin/count_r.rs:main", "src/bin/count_z.rs:main", "src/bin/count_runs.rs:main"])
p("How many LZ77 factors count_z reports for the generated words",
  "For the word that word writes for a name and k, count_z reports a number of LZ77 factors that depends on k in a simple way: k+1 for fibonacci (k <= 45), 2k+1 for fibonacci-lyndon-factor (2 <= k <= 22), k+2 for tribonacci (2 <= k <= 36), 2k for thue-morse and period-doubling (1 <= k <= 31) and for power2 (2 <= k <= 31), 3k for vtm (1 <= k <= 29), 3k-2 for paper-folding (3 <= k <= 30) and for quaternary-paper-folding (2 <= k <= 31); the lengths of the factors are known as well (powers of two times small constants, Fibonacci or tribonacci numbers), all but the last for tribonacci. Running word with an output file and then count_z on this file prints that number. The bounds on k are those of the 32-bit suffix array (words shorter than 2^32 bytes).",
  "every k in the stated ranges (words of up to billions of letters), every suffix sorter that sorts, every command line of the two programs with these settings",
  "the words double in length with k; tests can look at the first few only, and a test for k = 31 would need a factorization of 2^31 letters",
  ["src/word.rs: fibonacci_word, fibonacci_lyndonfactor, tribonacci_word, thuemorse_word, period_doubling_word, power2_sequence, vtm_word, paperfolding_word, quaternary_paperfolding_word", "src/bin/word.rs: main", "src/bin/count_z.rs: main"])
p("How many Lyndon factors duval and lyndonfactorization find in the generated words",
  "For the word that word writes for a name and k, duval (and so the program lyndonfactorization) finds a number of Lyndon factors that depends on k in a simple way, for every k the word program writes: fibonacci: k/2+1 for even k, k-1 for odd k >= 3; fibonacci-lyndon-factor and vtm: one (the words are Lyndon words); tribonacci: 2k/3+1 if 3 divides k, otherwise k-1 (k >= 4); thue-morse: floor(3k/2)-1 (k >= 2); period-doubling: k+1 for even k, (k+1)/2 for odd k; paper-folding: floor((k+1)/2)+4 (k >= 3); quaternary-paper-folding: floor(k/2)+2 (k >= 1); power2: k+2^(k-1) (k >= 1). The lengths of all factors are known as well: Fibonacci and tribonacci numbers or sums of two of them, powers of two and four times small constants, (4^m+2)/3 and (2*4^m+1)/3. Running word with an output file and then lyndonfactorization on this file prints that number. The kolakoski and de Bruijn words have no such rule here.",
  "every k the word program accepts for these names (words of up to 2^62 letters), every command line of the two programs with these settings",
  "the words double in length with k; tests can look at the first few only",
  ["src/core.rs: duval", "src/word.rs: fibonacci_word, fibonacci_lyndonfactor, tribonacci_word, thuemorse_word, period_doubling_word, power2_sequence, vtm_word, paperfolding_word, quaternary_paperfolding_word", "src/bin/word.rs: main", "src/bin/lyndonfactorization.rs: main"])
p("Compressed sizes against the number of different substrings",
  "The sizes the tools print bound how repetitive the text is, and are bounded by it. Let d(m) be the number of different substrings of length m of a text without zero bytes. Whenever is_stringattractor accepts a set of positions A for the text, d(m) <= m |A| for every m >= 1. So d(m) <= m z for the number z of factors count_z prints, d(m) <= m v for the number v of count_lexparse, and d(m) + m <= m r for the number of runs r of count_r. In the other direction, z <= n/l + d(2) + ... + d(l) + 1 for every l >= 1, and so z <= n/l + s^2 + ... + s^l + 1 for a text of n letters over an alphabet of s letters, whatever the text. For the word binary_debruijn of k, with length L, d(k+1) = L - k, so that all three tools report at least about L/(k+1): z and v are at least (L-k)/(k+1), r at least (L+1)/(k+1).",
  "every text (shorter than 2^32 bytes for count_z), every set of positions, every substring length m and every l >= 1",
  "the bounds compare sizes for every text and every length at once; tests see a few texts",
  ["src/bin/count_z.rs: main", "src/bin/count_lexparse.rs: main", "src/bin/count_r.rs: main", "src/bin/is_stringattractor.rs: is_attractor", "src/word.rs: binary_debruijn_word"])
p("How many minimal unique substrings mus reports, and what they tell",
  "For every non-empty text without zero bytes, get_mus on the text with the end marker 0 reports at least one pair and at most 2r - 3 pairs, where r is the number of BWT runs count_r prints for the same file; the bound is met by a text of one letter, and also holds for whatever the mus program (which appends no marker) prints. A substring occurs exactly once in the text if and only if it contains one of the reported substrings. Starts and ends of the reported substrings both increase strictly.",
  "every non-empty text without zero bytes, every substring of it",
  "relates two programs on every text, and speaks about all quadratically many substrings",
  ["src/bin/mus.rs: get_mus, main", "src/bin/count_r.rs: main", "src/core.rs: number_of_runs"])
p("The number of equal-letter runs bounds the other sizes",
  "For every non-empty text, let rho be the number of runs of equal letters count_runs prints for it. Then count_z prints at most 2 rho factors, count_lexparse at most 2 rho factors, count_r (for a text without zero bytes) at most 2 rho + 1 runs of the BWT, the end marker included, mus on the text with its end marker reports at most 4 rho - 1 substrings, and the Lyndon factors duval finds contain at most rho different words. The bounds for z, v, r and the Lyndon factors are met by small texts; the number of Lyndon factors itself, repetitions counted, can exceed every multiple of rho.",
  "every non-empty text (shorter than 2^32 bytes for count_z; without zero bytes for count_r and mus), every reader that delivers it",
  "relates six programs on every text; tests run each on a few texts",
  ["src/core.rs: number_of_runs, duval", "src/bin/count_runs.rs: main", "src/bin/count_z.rs: main", "src/bin/count_lexparse.rs: main", "src/bin/count_r.rs: main", "src/bin/mus.rs: main"])
p("The tools on the word binary_debruijn",
  "For every k, the word w that word binary_debruijn writes for k (a sequence with pairwise different cyclic windows of length k+1, but from k = 4 on not always a full de Bruijn sequence, C52) is primitive, and is_primitive says so. Its Lyndon conjugate is at position length - (k+1): the rotation that moves the k+1 trailing letters a to the front is smaller than all others, and it is a Lyndon word. duval cuts off exactly the k+1 trailing letters a as factors of their own, and the factors before are the Lyndon factorization of the rest, which ends with b.",
  "every k",
  "the word doubles in length with k; tests look at k up to 9",
  ["src/word.rs: binary_debruijn_word", "src/core.rs: lyndon_conjugate, is_primitive, duval"])
p("Consecutive kolakoski words are run-length encodings of each other",
  "For every k, the run lengths of the word kolakoski of k+1, writing a for 1 and b for 2, are exactly the word of k (not just a prefix of it), and the runs are alternately of b and of a, starting with b. So count_runs on the word of k+1 prints the length of the word of k, also when word writes the file that count_runs reads. The word of k+1 is longer than the word of k by the number of letters b in the latter, which is at least a third and at most about two thirds of its length; hence the length of the word of k is at least 2 (4/3)^k and at most 3 (5/3)^k - 1, far below the 2^(k+2) + 2 bytes allocated.",
  "every k for which the words are built (k+1 <= 60), every command line of word and count_runs with these settings",
  "the words have up to 2^60 letters; tests compare a prefix of 105 letters",
  ["src/word.rs: kolakoski_word, kolakoski_length_estimate", "src/core.rs: number_of_runs", "src/bin/count_runs.rs: main", "src/bin/word.rs: main"])
p("What reversing a file keeps",
  "Let rev s be what reverse writes for the text s. get_mus reports for rev s (with the end marker) exactly the mirror images of the substrings it reports for s, in reverse order; is_attractor accepts a set of text positions for s if and only if it accepts the mirrored set for rev s; the maximal runs of rev s are those of s in reverse order, so count_runs prints the same number; count_sigma prints the same number or panics for both, and the order-0 entropy is the same number bit by bit in any arithmetic (both hold for every rearrangement of the bytes); the smallest period, primitivity, and the number of different substrings of each length are kept. The numbers of LZ77 factors, of lexparse factors, of BWT runs and of Lyndon factors are not: all four differ for ababba and its reversal.",
  "every text (non-zero bytes for mus and is_attractor), every position set, every arithmetic for the entropy, every reader",
  "relates two runs of seven programs on every text; tests check single texts",
  ["src/bin/reverse.rs: main", "src/bin/mus.rs: get_mus, main", "src/bin/is_stringattractor.rs: is_attractor", "src/core.rs: number_of_runs, border_array, smallest_period, is_primitive", "src/bin/count_sigma.rs: count_sigma", "src/bin/entropy.rs: zero_order_entropy, main"])
p("how many runs count_runs finds in the generated words", "The word that word -n NAME -k K writes consists of exactly this many maximal runs of equal letters, and this is the number that number_of_runs returns on any reader delivering the word and that count_runs prints for the written file: fibonacci 2 F(k), plus 1 if k is even, with F the Fibonacci numbers 0, 1, 1, 2, ...; fibonacci-lyndon-factor 2 F(2k+1); tribonacci T(k) for k < 4 and otherwise T(k) - T(k-4), plus 1 if 3 divides k, with T(k) the length of the word; thue-morse and period-doubling both (2^(k+1) + 1)/3 for even and (2^(k+1) + 2)/3 for odd k; paperfolding 2^k + 1 (1 for k = 0); quaternary-paperfolding 2^k; power2 2k - 1 (1 and 2 for k = 0 and 1); vtm 3 * 2^(k-1) (1 for k = 0). So no letter is repeated in the quaternary paperfolding and ternary Thue-Morse words, and two thirds of the letters of the Thue-Morse and period doubling words, up to one, start a run.", "every name of a word except kolakoski (see C122) and binary-debruijn, every k for which the word is written, every reader and every chunking, every command lines of word and count_runs that spell such a session", "The word doubles or nearly doubles with k and a test can only count its runs for the small k; that the closed form continues to hold needs the induction along the morphism.", ["src/word.rs: fibonacci_word, fibonacci_lyndonfactor, tribonacci_word, thuemorse_word, period_doubling_word, paperfolding_word, quaternary_paperfolding_word, power2_sequence, vtm_word", "src/core.rs: number_of_runs", "src/bin/count_runs.rs: main", "src/bin/word.rs: main"])
p("how often each letter occurs in the generated words", "The word that word -n NAME -k K writes has exactly these letters, each exactly so often: fibonacci F(k+1) times a and F(k) times b (F the Fibonacci numbers 0, 1, 1, 2, ...); fibonacci-lyndon-factor F(2k+2) and F(2k+1); tribonacci T(k-1), T(k-2) and T(k-3) times a, b and c (T(i) the length of the i-th word; 1 for the first missing term, 0 before); thue-morse 2^(k-1) times each of a and b (one a for k = 0); period-doubling (2^(k+1) + 1)/3 times a and (2^k - 1)/3 times b for even, (2^(k+1) - 1)/3 and (2^k + 1)/3 for odd k; paperfolding 2^k + 1 ones and 2^k - 1 zeros; quaternary-paperfolding (k >= 2) 2^(k-2) - 1, 2^(k-2) + 1, 2^(k-2), 2^(k-2) times a, b, c, d; power2 (k >= 1) k times b, 2^k - k - 1 times a, and one zero byte; vtm (k >= 1) 2^(k-1) times each of a, b, c. Hence the number of different letters, which count_sigma prints for the written file, is known for every name, kolakoski and binary-debruijn included: 2 for the binary words but 1 for their first ones, 3 for tribonacci, power2 and vtm from k = 2, 2, 1 on, 4 for quaternary-paperfolding from k = 3 on.", "every name of a word (letter counts: all but kolakoski and binary-debruijn), every k for which the word is written, every command lines of word and count_sigma that spell such a session", "The words grow exponentially with k; a test counts the letters of a few of them, but the counts for all k need the induction along the morphism or recurrence.", ["src/word.rs: fibonacci_word, fibonacci_lyndonfactor, tribonacci_word, thuemorse_word, period_doubling_word, paperfolding_word, quaternary_paperfolding_word, power2_sequence, vtm_word, kolakoski_word, binary_debruijn_word", "src/bin/count_sigma.rs: count_sigma, main", "src/bin/word.rs: main"])
p("smallest periods of the generated words", "For the word that is generated for NAME and k, border_array and smallest_period report the true smallest period, which is F(k+1) for fibonacci (k >= 2; F the Fibonacci numbers 0, 1, 1, 2, ...), the length of the previous word for tribonacci (k >= 3), three quarters of the length, 3*2^(k-2), for thue-morse and period-doubling (k >= 2), one less than the length, 2^(k+1) - 1, for paperfolding, and the whole length for fibonacci-lyndon-factor, quaternary-paperfolding, power2 and vtm (which thus have no border), as for the first few words of the others; the last entry of the border array is the length minus this period. All these words are primitive, and is_primitive says so, with one exception: the first paperfolding word 11.", "every name of a word except kolakoski and binary-debruijn, every k for which the word is written", "The words grow exponentially with k; that no smaller period exists for any k needs the combinatorics of the words (primitivity, desubstitution), which tests of a few words do not give.", ["src/core.rs: border_array, smallest_period, is_primitive", "src/word.rs: fibonacci_word, fibonacci_lyndonfactor, tribonacci_word, thuemorse_word, period_doubling_word, paperfolding_word, quaternary_paperfolding_word, power2_sequence, vtm_word", "src/bin/word.rs: main"])
p("highest powers in the generated words", "The repetitions u u ... u (u not empty) inside the word that word -n NAME -k K writes are limited as the literature on these words says: fibonacci, fibonacci-lyndon-factor, tribonacci, period-doubling and paperfolding contain cubes (exactly from k = 6, 3, 7, 3 and 3 on) but no fourth powers, thue-morse contains squares (from k = 2 on) but no cubes, and quaternary-paperfolding and vtm contain no squares at all. The first three do not even contain a fourth power with its last letter cut off. In the paperfolding words every square u u has |u| = 1, 3 or 5, all of which occur from k = 3 on, and every cube is made of equal letters.", "every one of these names, every k for which the word is written, every factor of the word; every command line of word that spells such a run", "The words grow exponentially with k, and every factor at every position is meant; a test can check the factors of some short words only, the theorem needs desubstitution and induction over k.", ["src/word.rs: fibonacci_word, fibonacci_lyndonfactor, tribonacci_word, thuemorse_word, period_doubling_word, paperfolding_word, quaternary_paperfolding_word, vtm_word", "src/bin/word.rs: main"])
p("what reversing the generated words gives",
  "Let rev w be what reverse writes for w. The fibonacci, fibonacci-lyndon-factor, tribonacci, thue-morse and period-doubling words, and the vtm words with an even number, are turned into a rotation of themselves; so bwt --matrix --no-dollar writes the same bytes and count_r prints the same numbers for the word and for its reversal, and lyndon_conjugate finds the same word in both. Thue-morse words with an even number are palindromes, those with an odd number become their complement; fibonacci words are palindromes but for the last two letters, period-doubling words but for the last. A vtm word with an odd number becomes a rotation of itself after exchanging a and c, and the third is not one without. The next paperfolding word is the word s1 followed by s backwards with 0 and 1 exchanged and a final 1. Run as programs, word and then reverse leave a file and a rotation of it, the same bytes for even thue-morse words.",
  "every word number the program can write, every correct sorter, every correct command line, every file system",
  "relates several programs on exponentially long words; tests check the first few",
  ["src/word.rs: fibonacci_word, fibonacci_lyndonfactor, tribonacci_word, thuemorse_word, period_doubling_word, vtm_word, paperfolding_word", "src/bin/reverse.rs: main", "src/bin/word.rs: main", "src/bin/bwt.rs: main", "src/bin/count_r.rs: main", "src/core.rs: lyndon_conjugate, bwt_by_matrix_naive, bwt_by_matrix"])
p("number of runs of the default BWT of the generated words",
  "With the default options (a 0 byte appended, suffix array) bwt writes for the k-th word w the matrix BWT of w followed by 0, as the other two routines would, and count_r prints length(w)+1 and the number of runs of it: for thue-morse 2, 3, 5 and then 3k-2; for period-doubling 2, 3, 4 and then 2k-1; for vtm 2k+2; for quaternary-paperfolding 2, 3, 5, 8 and then 4k-5. Without the end marker and with the matrix transform the quaternary paperfolding word and each of its rotations have 4k-7 runs for k >= 3. Run as programs, word -n NAME -k K -o F followed by count_r -i F prints these numbers.",
  "every word number the program can write, every correct sorter, every correct command line, every file system",
  "the words grow exponentially with k, and nothing in the code says that the number of runs grows linearly; tests check the first few",
  ["src/word.rs: thuemorse_word, period_doubling_word, vtm_word, quaternary_paperfolding_word", "src/bin/word.rs: main", "src/bin/bwt.rs: main", "src/bin/count_r.rs: main", "src/core.rs: bwt_by_matrix_naive, bwt_from_text_by_sa, number_of_runs"])
p("number of runs of the BWT of the paperfolding words",
  "The matrix BWT of the k-th binary paperfolding word (length 2*2^k), and of each of its rotations, has 1, 2, 6, 10 and from k = 4 on 4k runs; with the default options (a 0 byte appended, suffix array) bwt writes the matrix BWT of the word followed by 0, as the matrix routine would, and it has 2, 4, 7, 8, 19 and from k = 5 on 4k+1 runs. count_r prints 2*2^k or 2*2^k+1 as the length and these numbers of runs. Run as programs, word -n paper-folding -k K -o F followed by count_r -i F (or count_r -i F -u -n) prints these numbers.",
  "every word number up to 61, every rotation, every correct sorter, every correct command line, every file system",
  "the words grow exponentially with k, and nothing in the code says that the number of runs grows linearly; tests check the first few",
  ["src/word.rs: paperfolding_word", "src/bin/word.rs: main", "src/bin/bwt.rs: main", "src/bin/count_r.rs: main", "src/core.rs: bwt_by_matrix_naive, bwt_from_text_by_sa, number_of_runs"])
if __name__ == "__main__":
    here = os.path.dirname(os.path.abspath(__file__))
    # statements corrected after the proofs showed the first wording to be false of the code
    for k, v in json.load(open(os.path.join(here, "overrides.json"))).items():
        P[int(k[1:]) - 1].update(v)
    with open(os.path.join(here, "..", "properties.jsonl"), "w") as f:
        for x in P: f.write(json.dumps(x, ensure_ascii=False) + "\n")
    print(len(P))
