{
 "C18": {
  "statement": "For every non-empty text bbwt_naive succeeds and returns the last letters of the omega-sorted conjugates of the Lyndon factors, a permutation of the text; two texts with the same bbwt_naive output are equal; every non-empty string is the bbwt_naive of some text; the empty text panics."
 },
 "C21": {
  "title": "BinaryStringGenerator enumerates all binary strings of a length, least significant bit first",
  "statement": "For every len<=63, the first 2^len calls of BinaryStringGenerator::new(len) yield each of the 2^len binary strings of that length exactly once, call number r giving the string whose letter i is bit i of r. Contrary to its documentation the order is not lexicographic and the iterator does not stop after 2^len strings: it starts over and returns None only at rank 2^64-1; lengths above 64 panic."
 },
 "C24": {
  "statement": "For every end e < 2^64-1 and 1<=log_alphabet_size<=7, RandomStringGenerator::new(0..e,l) yields exactly ceil(e/2) strings and then None; each string ends with the byte 0 and all its other bytes lie in 1..=2^l. (With l=8 a letter can be 0, and with e=usize::MAX the iterator panics instead of ending.) For a range s..e and 1<=l<=64 there are max(0,ceil(e/2)-s) strings, the j-th being the base-2^l digits of s+j+1 but the lowest, each plus one, and the final 0; nothing is random. l=0 or l>64 panics on the first call."
 },
 "C26": {
  "statement": "For every byte string without the byte 255, mtf produces one output byte per input byte and the standard move-to-front decoder over the symbols 0..=254 recovers the input. Inputs containing the byte 255 make mtf panic (the symbol table is built from 0..u8::MAX, which excludes 255)."
 },
 "C28": {
  "title": "exact behaviour of zero-run-length encoding, which is lossy",
  "statement": "For every byte string, rle_zero copies bytes other than '0', replaces a run of k<=255 '0' characters that is followed by another byte c by ('0',k-1) and drops c, replaces a final run of k by ('0',k), and panics iff some run of '0' has 256 or more characters. Hence it is not injective: different inputs can have the same output."
 },
 "C30": {
  "statement": "For all option values accepted by the sanity checks escape never panics, its output contains no --from symbol, and, provided equal --to symbols belong to equal --from symbols, running escape with --is-reversion recovers the processed prefix. With repeated --to symbols (accepted by the checks) the round trip fails."
 },
 "C31": {
  "title": "escape processes exactly the given prefix, so nothing by default",
  "statement": "escape transforms exactly the first min(prefixlength, length) bytes of its input; hence with the default prefixlength 0 it writes nothing at all, for every input and option set (the README pipeline without --prefixlength yields empty output). With --is-reversion the prefix length counts the bytes written instead: with prefixlength p it writes the first p bytes of what any larger prefix length writes, so that after escaping the first q bytes it recovers the first min(p,q) bytes (if equal --to symbols belong to equal --from symbols)."
 },
 "C32": {
  "statement": "For every byte string with at most 255 distinct byte values count_sigma returns their number; with all 256 byte values present it panics (u8 overflow)."
 },
 "C34": {
  "title": "when file and stdin input agree",
  "statement": "For every content and prefix length p, file_or_stdin2byte_vector gives the same bytes from a file and from stdin iff p <= length of the content; for larger p the file variant returns the whole content and the stdin variant panics. A file that shrinks between the metadata call and the read makes the file variant panic."
 },
 "C35": {
  "statement": "For every non-empty byte string shorter than 2^32, the count_z computation never panics (including its final debug assertion) and decode_lz77 of its factors is the text; the empty input panics."
 },
 "C38": {
  "title": "lexparse determines the text unless all letters are equal",
  "statement": "For every text containing two different letters the factors computed by count_lexparse cover the text and determine it: the text is the only string of its length consistent with the literals and copies. For a text c^n the factors are copies only and are consistent with d^n for every letter d, so they do not determine the text. The empty input panics."
 },
 "C40": {
  "title": "what the mus program reports for a file without sentinel",
  "statement": "For every non-empty input, the mus program (which appends no sentinel) panics iff some suffix of length at least 2 also occurs elsewhere in the input; otherwise it prints, by increasing position, exactly the minimal unique substrings that do not contain the last letter. The empty input panics. So in general it does not print all minimal unique substrings of the file."
 },
 "C41": {
  "statement": "For every non-empty zero-free S with sentinel appended and every list A of positions inside the text, is_attractor returns true iff every non-empty substring of S has an occurrence containing a position of A; for ASCII S it never panics, for other S it can only panic instead of answering false (printing an uncovered substring that is not UTF-8). Positions outside the text panic; for the empty S with no positions it answers false although the empty set is an attractor."
 },
 "C42": {
  "statement": "fibonacci_word(k) does not panic and equals f_k with f_0=a, f_1=ab, f_{k+2}=f_{k+1}f_k, of length fibonacci_number(k), exactly for k<=74 and k=76; for k=75 and k>=77 the floating-point length estimate is too small and the function panics. For no k is a different word returned. Whatever the estimate, a buffer longer than the word suffices, a shorter one panics, and one of exactly its length panics for odd k."
 },
 "C44": {
  "statement": "For every k<63, thuemorse_word(k) has length 2^k and its i-th letter is a iff i has an even number of binary one digits; it equals the k-fold iteration of a->ab, b->ba on a. For k>=63 it panics (capacity or shift overflow)."
 },
 "C45": {
  "statement": "For every k<=60, kolakoski_word(k) stays inside its buffer (the unsafe set_len is in bounds), and the run lengths of the result, reading a as 1 and b as 2, are a prefix of the result itself; the word starts with bb and successive words properly extend one another. For k>=61 it panics."
 },
 "C46": {
  "statement": "For every k<63, period_doubling_word(k) has length 2^k, equals the k-fold iteration of a->ab, b->aa on a, and letter i is a iff the exponent of 2 in i+1 is even; for k>=63 it panics."
 },
 "C47": {
  "statement": "For every k whose length t(k) is below 2^63, tribonacci_word(k) equals t_k = t_{k-1}t_{k-2}t_{k-3} (t_0=a,t_1=ab,t_2=abac) and its length is tribonacci_number(k); for larger k it panics. tribonacci_number(k) is t(k), or a panic when t(k) exceeds usize."
 },
 "C48": {
  "statement": "For every k<=29, vtm_word(k) is the k-fold iterate of a->abc, b->ac, c->b on a and contains no square; for k>=30 it panics (the i32 size hint overflows)."
 },
 "C49": {
  "statement": "For every k<=29, fibonacci_lyndonfactor(k) returns; the words fibonacci_lyndonfactor(0..k) are Lyndon, strictly decreasing, and their concatenation is a prefix of the infinite Fibonacci word. For k>=30 it panics."
 },
 "C50": {
  "statement": "For every i<62, paperfolding_word(i) has length 2^(i+1) and its letter at 1-based position 2^e*m (m odd) is 1 iff m = 1 mod 4; for i>=62 it panics."
 },
 "C51": {
  "statement": "For every k<63, power2_sequence(k) has length 2^k and its letter at 1-based position j<2^k is b iff j is a power of two, a otherwise; the last byte (position 2^k) is left 0. For k>=63 it panics."
 },
 "C52": {
  "title": "binary_debruijn_word never repeats a window",
  "statement": "For every k, binary_debruijn_word(k) terminates without panicking, returns at most 2^(k+1) letters a/b ending in a^(k+1), and no string of length k+1 occurs twice in it read cyclically. For k<=3 it has exactly 2^(k+1) letters and so is a de Bruijn sequence; for no even k>=4 it is: it is shorter, and aa(ab)^(k/2-1)a does not occur (k=4: 25 letters); nor is it for any odd k from 5 to 15 (lengths 41, 81, 166, 3399, 6321, 9445)."
 },
 "C53": {
  "title": "is_necklace decides prenecklaces",
  "statement": "For 1<=n<=len, is_necklace(text,n) is true iff text[0..n) is a prefix of some necklace (a word that is smallest among its rotations); every necklace is accepted, but so are prenecklaces such as aba."
 },
 "C54": {
  "statement": "For every alphabet size 1..26 and lengths 1<=min<=max, enumerate prints exactly the strings over the first alphabet_size letters with min<=length<=max, each once, shorter strings first and strings of equal length in lexicographic order, and terminates; without max_len it prints the strings of length min_len; all other arguments make it exit with status 1 without printing."
 },
 "C55": {
  "statement": "For every length and alphabet size (at most 159) whose number of strings fits in a usize, the generator yields every string of that length over the first alphabet_size letters exactly once (ordered lexicographically from the last letter); otherwise usize::pow panics. The program prints the 4^8 strings, one per line."
 },
 "C58": {
  "statement": "For every random stream, if randomstring terminates it has written exactly prefixlength characters drawn from the stream, using at most alphabet_size distinct ones when alphabet_size is not 0; it never panics, and it terminates on every stream in which each occurring character recurs infinitely often."
 },
 "C59": {
  "title": "what bwt writes for each combination of options",
  "statement": "bwt writes the matrix BWT of the dollar-terminated text for every zero-free input with default options; with --no-dollar alone it writes the letters before the sorted suffixes of the text, in general not its matrix BWT; without --use-matrix a zero byte in the input (with --no-dollar: before its last byte, or an empty input) makes it panic. With --use-matrix it writes the matrix BWT of the text (with its dollar unless --no-dollar) whenever that has fewer than 100 bytes, and for every non-empty zero-free text with --no-dollar; but --use-matrix panics on every text of at least 100 bytes that contains a zero byte, in particular for every input of at least 99 bytes without --no-dollar. count_r prints the length and number of runs of exactly the string bwt writes."
 },
 "C60": {
  "statement": "For every non-empty text, lyndonfactorization prints the number of Lyndon factors and with -o writes, in order and with their numbers and positions, the Lyndon factors of the text, omitting only a last factor (other than the first) that is a NUL byte; on an empty text it panics."
 },
 "C56": {
  "statement": "Read over the reals: zero_order_entropy of non-empty bytes is their zero-order empirical entropy H0, and for every non-empty zero-free byte string S with terminator, n = |S|+1 and every k >= 1, kth_order_entropy is (1/n) * sum over the words w of length k that are followed by a letter of |T_w| H0(T_w), T_w listing the letters that follow w; so it is 0 for k > |S|. It panics for k = 0 and for a zero byte before the terminator. For the empty S it panics for k = 1 and returns 0 for k >= 2."
 },
 "C57": {
  "statement": "For every non-empty zero-free byte string S with terminator, every order 1..7 that is at most |S|+1 and every iteration order of the hash maps, entropy_via_kmer_counting returns the text length and the same real number as kth_order_entropy. For orders above |S|+1 the first panics and the second returns 0; for the empty S and order 1 it is the other way round; the k-mer program panics for order 0 and orders above 7."
 },
 "C64": {
  "statement": "For every word name and every k (a u8), the program word writes exactly the word the name describes, or it aborts without writing anything; for each name there is an explicit largest k up to which it writes, beyond which it always aborts (with the single exception of the Fibonacci word for k=76, which is written although k=75 aborts)."
 },
 "C68": {
  "statement": "For every k from 2 to 74 and k = 76, if w is the k-th Fibonacci word and n the (k-1)-th Fibonacci number as the library computes them, then is_attractor on w followed by the 0 terminator answers true for the two positions n-1 and n-2, and answers false for every single position."
 },
 "C69": {
  "statement": "For every k from 4 to 74 and k = 76, the minimal unique substrings computed for the k-th Fibonacci word followed by the 0 terminator are exactly two: (f(k-2)-1, f(k-3)) and (f(k-1)-1, f(k-2)) as (position, length), in this order, where f is fibonacci_number."
 },
 "C67": {
  "statement": "For every interleaving of the workers of max_lyndon_word every execution is bounded. When all workers finish, the word counters are the numbers of binary Lyndon words per length and the win/tie counters count exactly the conjugates whose BBWT has more/fewer/equally many runs than the BWT; the remembered text per length is empty exactly if no conjugate has fewer BBWT runs, otherwise it is a genuine such conjugate with its run counts. With one worker it is the first (least Lyndon word, then least rotation) among those of maximal difference - the secondary criterion (fewer characters '0') never decides, because the words consist of the bytes 0 and 1. With two workers it may not be maximal: a worse conjugate can overwrite a better one. An execution can only stop with every worker ended or with one worker holding total_counter and waiting for num_lyndon_words while another holds num_lyndon_words and waits for total_counter; a worker panics only after one of the i32 counters has reached 2^31-1, which cannot happen up to length 31. With the constants of the program (length 40, every 10000 words, 4 workers) the deadlock is reachable without any overflow, and no execution at all finishes: the counters of length 40 do not fit (in a build with overflow checks)."
 },
 "C77": {
  "statement": "For every non-empty zero-free ASCII file prefix s and position list A: the program exits with 1 and prints nothing if some position exceeds |s|; otherwise it exits with 0 and prints 'valid attractor' if A is a string attractor of s, and otherwise exits with 2 after printing 'substring .. not covered!' lines and 'not a valid attractor'. In that case at least one line is printed; if A is non-empty every word shown is a substring of s none of whose occurrences contains a position of A; and every uncovered substring has a prefix (of one of its occurrences) that is shown. Exactly the uncovered substrings are shown whose longest proper prefix is empty or has occurrences with different continuations (another letter or the end of the text). With an empty A one further word is shown, the end marker, which s does not contain. Every word is shown exactly once, in lexicographic order, except that a word comes before its own proper prefixes; the end marker comes last."
 },
 "C43": {
  "statement": "fibonacci_number(k) is the (k+2)-nd Fibonacci number for every k<=91 and panics on overflow (checked build) for every larger k. The f64 estimate used for sizing the buffer is less than 1/2 away from the Fibonacci number up to index 74, and not at index 75."
 },
 "C92": {
  "statement": "The zero-order entropy that the entropy program computes in f64 arithmetic is a finite, non-negative number (never NaN or infinite) for every non-empty byte sequence of up to 2^50 bytes; if f64::log2 has relative error at most delta it differs from the mathematical H0 by at most 2(delta + 258 * 2^-53) H0 + 6 * 2^-53 (below 2^-40 bits for a correctly rounded logarithm), and it is exactly 0 if and only if H0 is 0. Its sign bit is always clear: neither a negative number nor \"-0\" is ever printed."
 },
 "C93": {
  "statement": "For every text without zero bytes, with the terminator n <= 2^50 bytes, and every order k >= 1, the value that the entropy program prints is a finite, non-negative f64 that differs from the mathematical k-th order empirical entropy Hk by at most 2(delta + (n+260) 2^-53) Hk + 6 * 2^-53, delta being the relative error of f64::log2; it is exactly 0 if and only if Hk is 0. Its sign bit is always clear: neither a negative number nor \"-0\" is ever printed."
 },
 "C98": {
  "statement": "For every non-empty zero-free file prefix s with arbitrary other bytes and all positions at most |s|: if A is a string attractor, the program prints 'valid attractor' and exits with 0. Otherwise it reports exactly the uncovered substrings whose longest proper prefix is empty or continues in two ways in s (plus the end marker if A is empty) and exits with 2 - provided that each of these words is well-formed UTF-8 by itself; if one of them is not, the program panics. In particular it panics as soon as some byte above 127 occurs in s at no position of A, even if s itself is well-formed UTF-8, so 'the program judges every candidate set' fails for non-ASCII texts. Every word is shown exactly once, in lexicographic order, except that a word comes before its own proper prefixes; the end marker comes last."
 },
 "C06": {
  "statement": "For every text of length n>=1, smallest_period(border_array(text)) is the least p with 1<=p<=n such that text[i]=text[i+p] whenever i+p<n. The empty text has period 0; an empty table (no border array) panics."
 },
 "C09": {
  "statement": "For every permutation arr of 0..n, inv=inverse_permutation(arr) satisfies inv[arr[i]]=i and arr[inv[j]]=j for all i,j, and applying it twice gives arr back; an out-of-range entry panics. For any other table of values below its length, inv[v] is the last position of v, and 0 if v does not occur."
 },
 "C12": {
  "statement": "For every non-empty array of fewer than 2^32 entries, psv[i] is the largest p<i with arr[p]<arr[i] and nsv[i] the smallest p>i with arr[p]<arr[i], or u32::MAX when there is none; empty input panics. With more than 2^32 entries this fails: on an increasing array entry 2^32 gets the marker u32::MAX although the entry before it is smaller."
 },
 "C105": {
  "statement": "For the words that the fibonacci generator writes, the counting programs print closed formulas: count_z finds exactly k+1 factors on the k-th word (two literals, one copy of length 1, copies whose lengths are the lengths of the words of index 2 to k-2, and one final copy of length 2); count_lexparse finds exactly four factors on every word of even index k >= 4 (two copies and two literals) but (k+5)/2 factors on every word of odd index k >= 5, with copies of length |F(k-1)|-2, |F(k-4)|+2, |F(k-4)|, |F(k-6)|, ..., |F(3)|, then a literal, a copy of length 1 and a literal; count_r by suffix array finds exactly k-1 runs on a word of odd index k >= 5 without the terminator and k runs with it (index 3 is an exception with four runs in both variants), while even indices have 2 and 4 runs."
 },
 "C75": {
  "statement": "For every non-empty zero-free text s, the last positions of the factors computed by count_z, those of the factors computed by count_lexparse, and the text positions of the first letters of the runs of the BWT that bwt writes for s with its end marker (exactly r - 1 positions, r as printed by count_r) are accepted by is_stringattractor as an attractor of s. Conversely, whatever set is accepted has at least as many positions as s has different letters, and has a position inside every substring that occurs only once (so in every minimal unique substring)."
 },
 "C109": {
  "statement": "For non-empty byte texts shorter than 2^32: continuing a text never decreases the number of factors computed by count_z, and keeps the lengths of all its factors but the last; the count of a concatenation is at most the sum of the two counts; repeating a text any number of times costs at most one more factor; removing the first letter at most doubles the count (z(t) <= 2 z(ct) - 2) and putting a letter in front adds at most one; changing a single byte gives at most 3z + 2 factors, inserting one anywhere at most 2z + 2, deleting one at most 3z + 1, and replacing a block u by any block v at most (|u| + 2) z + |v| + 1. Suffixes and reversals may need more factors, and the numbers printed by count_r and count_lexparse are neither monotone in prefixes nor subadditive."
 }
}