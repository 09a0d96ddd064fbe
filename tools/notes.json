{
 "C01": {
  "note": "Every text; factors are exhibited and the returned list is exactly their 0-based end positions."
 },
 "C03": {
  "note": "sa is any list satisfying is_suffix_array (unique, see C08)."
 },
 "C11": {
  "note": "Includes the wrap-around entry phi[sa[0]]=sa[n-1] and texts without sentinel."
 },
 "C12": {
  "note": "Arrays shorter than 2^32; the u32 marker and the `as u32` cast are modelled."
 },
 "C20": {
  "note": "1<=sigma<=256 and n>=1; sigma=0 and n=0 described by separate theorems."
 },
 "C15": {
  "note": "sort is any function returning suffix arrays (divsufsort is trusted to be one)."
 },
 "C18": {
  "note": "Includes surjectivity (pigeonhole over the permutations of a word)."
 },
 "C21": {
  "note": "Property text states what the code does; the documented order and termination are refuted by separate theorems."
 },
 "C24": {
  "note": "Also gives the exact letters of every string."
 },
 "C26": {
  "note": "Byte 255 panics: the all-bytes claim is refuted."
 },
 "C28": {
  "note": "Losslessness is refuted; the exact output is proved for every input."
 },
 "C30": {
  "note": "Round trip under the stated condition on repeated --to symbols; its necessity shown by a counterexample theorem."
 },
 "C31": {
  "note": "The documented whole-input default is refuted."
 },
 "C34": {
  "note": "Agreement iff prefix <= length."
 },
 "C35": {
  "note": "Bytes < 256, length < 2^32; range-minimum crate replaced by its documented result (rmq), divsufsort by any suffix sorter."
 },
 "C36": {
  "note": "is_lz77_parsing spells out longest previous factors; factor lengths are unique."
 },
 "C37": {
  "note": "parsable ranges over all parsings into literals and earlier-starting copies, overlapping allowed."
 },
 "C38": {
  "note": "Naive claim false for c^n (refuted theorem covers all n, c)."
 },
 "C39": {
  "note": "get_mus composed with the structures of main, on s followed by 0."
 },
 "C40": {
  "note": "Naive claim (all MUSs of the file) refuted; exact behaviour proved for all texts."
 },
 "C41": {
  "note": "RMQ structure and rank/select structure modelled by their specifications; the printing of the counterexample is modelled only by its UTF-8 unwrap."
 },
 "C42": {
  "note": "Binet's formula is modelled in IEEE binary64 (SpecFloat) with compiler-rt's powi. C42_any_estimate shows the word is right for any sufficient buffer length (C42_short_estimate: and that shorter ones panic), so the rounding of powi only decides where the panics start (C42_whole_range_refuted: k=75 panics although the length fits)."
 },
 "C51": {
  "note": "The first wording (position 2^k is b) is refuted: C51_last_letter_refuted."
 },
 "C52": {
  "note": "The documented claim (length 2^(k+1) for every k) is false of the code: C52_debruijn_refuted (k=4), C52_even_k_refuted (every even k>=4), C52_odd_k_refuted (odd k from 5 to 15, by evaluation). The cause is that is_necklace accepts prenecklaces (C53). For odd k>=17 nothing is claimed beyond C52_debruijn_windows_unique: no uniform missing window is known."
 },
 "C53": {
  "note": "The doc comment claims necklaces; refuted by C53_only_necklaces_refuted. n=0 is never accepted."
 },
 "C59": {
  "note": "The first wording (--use-matrix works for every zero-free input) is false of the code: C59_use_matrix_refuted."
 },
 "C56": {
  "note": "f64 numbers are modelled as exact real numbers (NaN = None); rounding is not modelled. Uses the axioms of Coq.Reals."
 },
 "C57": {
  "note": "f64 numbers are modelled as exact real numbers; hash map iteration order is arbitrary. Uses the axioms of Coq.Reals."
 },
 "C64": {
  "note": "word_main models the dispatch; writing itself (write_all) is assumed to succeed. BinaryDeBrujin: no resource limit is modelled for its output vector."
 },
 "C63": {
  "note": "fuel of iterate_general_morphism is S(max image length ^ rounds), proved sufficient under the stated hypotheses"
 }
}