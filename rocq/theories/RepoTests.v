(** The unit tests of /repo, run on the model.  These are tests of the model, not theorems: they check that
    the model computes what the code is known to compute.  Each example cites the test it copies; the
    properties behind the tests are proved for all inputs in the Props files. *)
From Coq Require Import List Arith Lia Bool NArith String Ascii.
From Verif Require Import Base ModelIo ModelCore ModelTools ModelWord ModelLz ModelAttr ModelMain ModelPar SortFacts.
Import ListNotations.

(** A byte string literal b"..." *)
Definition b (s : string) : str := List.map (fun c => N.to_nat (N_of_ascii c)) (list_ascii_of_string s).

Definition ok_eqb (r : res str) (w : str) : bool :=
  match r with Ok v => if list_eq_dec Nat.eq_dec v w then true else false | _ => false end.
Definition same (r1 r2 : res str) : bool := match r2 with Ok v => ok_eqb r1 v | _ => false end.
Definition len_is (r : res str) (n : res N) : bool :=
  match r, n with Ok v, Ok m => (N.of_nat (List.length v) =? m)%N | _, _ => false end.

(** word.rs:72-81 *)
Example test_fibonacci_word :
  map fibonacci_word (seq 0 7) =
  [Ok (b "a"); Ok (b "ab"); Ok (b "aba"); Ok (b "abaab"); Ok (b "abaababa"); Ok (b "abaababaabaab");
   Ok (b "abaababaabaababaababa")].
Proof. vm_compute. reflexivity. Qed.
(** word.rs:82-98 *)
Example test_fibonacci_number :
  map fibonacci_number (seq 0 11) = map (fun n => Ok n) [1;2;3;5;8;13;21;34;55;89;144]%N
  /\ forallb (fun k => len_is (fibonacci_word k) (fibonacci_number k)) (seq 0 16) = true.
Proof. vm_compute. auto. Qed.
(** word.rs:120-127 *)
Example test_thuemorse_word :
  map thuemorse_word (seq 0 5) =
  [Ok (b "a"); Ok (b "ab"); Ok (b "abba"); Ok (b "abbabaab"); Ok (b "abbabaabbaababba")].
Proof. vm_compute. reflexivity. Qed.

(** word.rs:183-204: the prefix of OEIS A078880 in the test, 2 = b and 1 = a.  The test calls the function for
    k = 0, 1, ... while the word fits. *)
Definition kolakoski_prefix : str := b
  "bbaababbabbaabaabbabaababbaabaababbabbaababbabaabaabbabbaababbabbaabaababbabaabbabbaababbabbaabaabbabaaba".
Example test_kolakoski :
  forallb (fun k => match kolakoski_word k with
                    | Ok s => if List.length kolakoski_prefix <? List.length s then false
                              else ok_eqb (Ok s) (firstn (List.length s) kolakoski_prefix)
                    | _ => false end) (seq 0 9) = true
  /\ match kolakoski_word 9 with Ok s => List.length kolakoski_prefix <? List.length s | _ => false end = true.
Proof. vm_compute. auto. Qed.

(** word.rs:355-363, 365-373 *)
Example test_thue_morse_morphism :
  forallb (fun k => same (thuemorse_word k) (iterate_2morphism k thuemorse_morphism)) (seq 0 10) = true.
Proof. vm_compute. reflexivity. Qed.
Example test_fibonacci_morphism :
  forallb (fun k => same (fibonacci_word k)
     (n <- fibonacci_number k ;; iterate_general_morphism k fibonacci_morphism n)) (seq 0 10) = true.
Proof. vm_compute. reflexivity. Qed.
(** word.rs:375-400 *)
Example test_perioddoubling :
  map (fun k => iterate_2morphism k period_doubling_morphism) (seq 0 6) =
  [Ok (b "a"); Ok (b "ab"); Ok (b "abaa"); Ok (b "abaaabab"); Ok (b "abaaabababaaabaa");
   Ok (b "abaaabababaaabaaabaaabababaaabab")].
Proof. vm_compute. reflexivity. Qed.
(** word.rs:448-458; [resize(99, 0)] truncates the 1024 letters *)
Example test_paperfolding :
  map quaternary_paperfolding_word (seq 0 4) = [Ok (b "d"); Ok (b "db"); Ok (b "dbcb"); Ok (b "dbcbdacb")]
  /\ (l <- paperfolding_word 10 ;; Ok (firstn 99 l)) = Ok (b
  "110110011100100111011000110010011101100111001000110110001100100111011001110010011101100011001000110").
Proof. vm_compute. auto. Qed.
(** word.rs:519-533, [is_necklace_slice t] = [is_necklace t t.len()] *)
Example test_is_necklace :
  map (fun s => is_necklace (b s) (String.length s))
    ["a"; "aa"; "ab"; "aaa"; "aba"; "aaba"; "abab"; "ababa"; "ba"; "bab"; "bba"; "bbba"]%string
  = repeat (Ok true) 8 ++ repeat (Ok false) 4.
Proof. vm_compute. reflexivity. Qed.
(** word.rs:575-587 *)
Fixpoint is_prefix_b (p t : str) : bool :=
  match p, t with [], _ => true | x :: p', y :: t' => (x =? y) && is_prefix_b p' t' | _, [] => false end.
Definition occurs_in (p t : str) : bool := existsb (fun i => is_prefix_b p (skipn i t)) (seq 0 (S (List.length t))).
Example test_binary_debruijn_word :
  forallb (fun k => match binary_debruijn_word k with
    | Ok w => forallb (fun pos => negb (occurs_in (firstn (k + 1) (skipn pos w)) (skipn (pos + 1) w)))
                (seq 0 (List.length w - k))
    | _ => false end) (seq 2 6) = true.
Proof. vm_compute. reflexivity. Qed.
(** word.rs:627-640, 656-673 *)
Example test_tribonacci :
  map tribonacci_word (seq 0 7) =
  [Ok (b "a"); Ok (b "ab"); Ok (b "abac"); Ok (b "abacaba"); Ok (b "abacabaabacab"); Ok (b "abacabaabacababacabaabac");
   Ok (b "abacabaabacababacabaabacabacabaabacababacaba")].
Proof. vm_compute. reflexivity. Qed.
Example test_tribonacci_number :
  map tribonacci_number (seq 0 11) = map (fun n => Ok n) [1;2;4;7;13;24;44;81;149;274;504]%N
  /\ forallb (fun k => len_is (tribonacci_word k) (tribonacci_number k)) (seq 0 11) = true.
Proof. vm_compute. auto. Qed.
(** word.rs:690-697 *)
Example test_vtm :
  map vtm_word (seq 2 3) = [Ok (b "abcacb"); Ok (b "abcacbabcbac"); Ok (b "abcacbabcbacabcacbacabcb")].
Proof. vm_compute. reflexivity. Qed.
(** word.rs:719-724 *)
Example test_fibonacci_lyndonfactor :
  map fibonacci_lyndonfactor (seq 0 3) = [Ok (b "ab"); Ok (b "aabab"); Ok (b "aabaababaabab")].
Proof. vm_compute. reflexivity. Qed.

(** core_test.rs: the tests run over the texts of RandomStringGenerator::new(0..4096, 1), here 0..256. *)
Fixpoint rsg_all (fuel : nat) (g : rsg) : list str :=
  match fuel with
  | 0 => []
  | S f => match rsg_next g with Ok (Some t, g') => t :: rsg_all f g' | _ => [] end
  end.
Definition texts : list str := rsg_all 200 (RSG 0 256 1).
Example texts_number : (List.length texts, hd [] texts, last texts []) = (128, [0], [1;1;1;1;1;1;2;0]).
Proof. vm_compute. reflexivity. Qed.
(** core_test.rs:12-31 *)
Example test_duval :
  forallb (fun t => same (duval t) (isa <- inverse_permutation (naive_sort t) ;; isa_lyndon_factorization isa)) texts = true.
Proof. vm_compute. reflexivity. Qed.
(** core_test.rs:34-42 *)
Example test_bwt_from_text_by_sa :
  map (fun i => text <- fibonacci_word (2 * i) ;; bwt <- bwt_from_text_by_sa naive_sort text ;;
                number_of_runs (S (List.length bwt)) (slice_reader bwt)) (seq 1 6) = repeat (Ok 2) 6.
Proof. vm_compute. reflexivity. Qed.
(** core_test.rs:44-58 *)
Example test_bwt_by_matrix :
  forallb (fun t => if List.length t <? 2 then true else
     same (bwt_by_matrix_naive (firstn (List.length t - 1) t)) (bwt_by_matrix naive_sort (firstn (List.length t - 1) t)))
   texts = true.
Proof. vm_compute. reflexivity. Qed.
(** core_test.rs:60-84 *)
Fixpoint le_b (u v : str) : bool :=
  match u, v with [], _ => true | _, [] => false
  | x :: u', y :: v' => if x <? y then true else if x =? y then le_b u' v' else false end.
Example test_lyndon_conjugate :
  forallb (fun t => match lyndon_conjugate t with
     | Ok l => (l <? List.length t) &&
               forallb (fun c => le_b (skipn l t ++ firstn l t) (skipn c t ++ firstn c t)) (seq 0 (List.length t))
     | _ => false end) texts = true.
Proof. vm_compute. reflexivity. Qed.
(** core_test.rs:86-100, 102-113 *)
Example test_border_array :
  forallb (fun t => match border_array t with
     | Ok bo => (nth 0 bo 9 =? 0) && (nth 1 bo 9 =? 0) &&
        forallb (fun i => forallb (fun q => nth q t 9 =? nth (i - nth i bo 0 + q) t 8) (seq 0 (nth i bo 0))) (seq 2 (List.length t - 2))
     | _ => false end) texts = true.
Proof. vm_compute. reflexivity. Qed.
Example test_period :
  forallb (fun t => match (bo <- border_array t ;; smallest_period bo) with
     | Ok p => forallb (fun i => nth i t 9 =? nth (i + p) t 8) (seq 0 (List.length t - p))
     | _ => false end) texts = true.
Proof. vm_compute. reflexivity. Qed.

(** mtf.rs:34-50 *)
Definition mtf_vector (s : str) : res str := mtf (S (List.length s)) (slice_reader s).
Example test_mtf :
  map (fun s => mtf_vector (b s)) ["aa"; "ba"; "abab"; "abba"; "aabb"]%string =
  [Ok [97; 0]; Ok [98; 98]; Ok [97; 98; 1; 1]; Ok [97; 98; 0; 1]; Ok [97; 0; 98; 0]].
Proof. vm_compute. reflexivity. Qed.
(** count_z.rs:119-142 *)
Example test_compute_lz77 :
  forallb (fun t => ok_eqb (f <- count_z_main naive_sort t ;; decode_lz77 f) t) texts = true.
Proof. vm_compute. reflexivity. Qed.
(** is_stringattractor.rs:290-299 and 307-317, up to smaller sizes *)
Example test_attractor_period_doubling :
  forallb (fun i => match (text <- period_doubling_word (i - 1) ;;
     is_attractor naive_sort (text ++ [0]) [3 * 2 ^ (i - 4) - 1; 3 * 2 ^ (i - 3) - 1]) with Ok true => true | _ => false end)
   (seq 5 4) = true.
Proof. vm_compute. reflexivity. Qed.
Example test_attractor_fibonacci_attractor :
  forallb (fun i => match (f <- fibonacci_number (i - 1) ;; text <- fibonacci_word i ;;
     is_attractor naive_sort (text ++ [0]) [N.to_nat f - 1; N.to_nat f - 2]) with Ok true => true | _ => false end)
   (seq 3 7) = true.
Proof. vm_compute. reflexivity. Qed.
(** mus.rs:122-134, up to smaller sizes *)
Example test_mus_fibonacci :
  forallb (fun i => match (text <- fibonacci_word i ;; m <- mus_main naive_sort (text ++ [0]) ;;
      f1 <- fibonacci_number (i - 1) ;; f2 <- fibonacci_number (i - 2) ;; f3 <- fibonacci_number (i - 3) ;;
      Ok (m, (N.to_nat f1, N.to_nat f2, N.to_nat f3))) with
    | Ok ([(p1, l1); (p2, l2)], (f1, f2, f3)) => (p1 =? f2 - 1) && (l1 =? f3) && (p2 =? f1 - 1) && (l2 =? f2)
    | _ => false end) (seq 4 6) = true.
Proof. vm_compute. reflexivity. Qed.
(** count_sigma.rs:24-30 *)
Example test_count_sigma : map (fun s => count_sigma (b s)) [""; "aaa"; "aba"; "abc"]%string = [Ok 0; Ok 1; Ok 2; Ok 3].
Proof. vm_compute. reflexivity. Qed.
(** parallel.rs:92-103 *)
Example test_number_distinct_lyndon_factors :
  map (fun s => number_distinct_lyndon_factors (b s))
   ["a"; "aa"; "aaaaaaaaa"; "ababa"; "abababaaaa"; "abababa"; "abracadabra"; "ababbababbabababaaaa";
    "ababbababbbababbababbabababaaaa"]%string
  = map (fun n => Ok n) [1; 1; 1; 2; 2; 2; 3; 3; 4].
Proof. vm_compute. reflexivity. Qed.
