(** CostProof.v : the counted functions of ModelCost.v compute what the models compute, with a linear number of iterations. *)
From Verif Require Import Base SpecStr LexFacts PermFacts ModelCore ModelLz ModelAttr ModelCost CostFacts DuvalProof BorderProof LcpProof.
From Coq Require Import NArith.

(** ** the counter changes nothing *)
Ltac er := repeat first
  [ apply erase_free | apply erase_bind_free; intros | apply erase_bind_const | apply erase_const
  | apply erase_loop; intros | apply erase_for; intros | apply erase_for_ret; intros ].

Lemma duval_scan_erase t k : erase (duval_scan_c t k) = duval_scan t k.
Proof. unfold duval_scan_c, duval_scan. apply erase_loop. intros [i j]. apply erase_free. Qed.
Lemma duval_emit_erase n i j k e : erase (duval_emit_c n i j k e) = duval_emit n i j k e.
Proof. unfold duval_emit_c, duval_emit. apply erase_loop. intros [k' e']. apply erase_free. Qed.
Lemma duval_erase t : erase (duval_c t) = duval t.
Proof.
  unfold duval_c, duval. apply erase_loop. intros [k e]. destruct (k <? length t); [|apply erase_free].
  apply erase_bind; [apply duval_scan_erase|]. intros [i j]. apply erase_bind; [apply duval_emit_erase|]. intros [k' e']. apply erase_free.
Qed.
Lemma isa_lyndon_erase isa : erase (isa_lyndon_factorization_c isa) = isa_lyndon_factorization isa.
Proof.
  unfold isa_lyndon_factorization_c, isa_lyndon_factorization. er. apply erase_bind.
  - apply erase_for. intros k [c e]. apply erase_free.
  - intros [c e]. apply erase_free.
Qed.
Lemma lyndon_conjugate_erase t : erase (lyndon_conjugate_c t) = lyndon_conjugate t.
Proof.
  unfold lyndon_conjugate_c, lyndon_conjugate. er. apply erase_bind; [apply duval_erase|]. intros fs. cbv zeta. er.
  destruct (a + 1 =? length t); er. apply erase_bind; [er|]. intros. er.
Qed.
Lemma border_descend_erase t b i l : erase (border_descend_c t b i l) = border_descend t b i l.
Proof. unfold border_descend_c, border_descend. er. Qed.
Lemma border_array_erase t : erase (border_array_c t) = border_array t.
Proof.
  unfold border_array_c, border_array. apply erase_bind.
  - er. apply erase_bind; [apply border_descend_erase|]. intros. er.
  - intros. er.
Qed.
Lemma is_primitive_erase t : erase (is_primitive_c t) = is_primitive t.
Proof. unfold is_primitive_c, is_primitive. apply erase_bind; [apply border_array_erase|]. intros. er. Qed.
Lemma compute_phi_erase sa : erase (compute_phi_c sa) = compute_phi sa.
Proof. unfold compute_phi_c, compute_phi. er. apply erase_bind; [er|intros; er]. Qed.
Lemma inverse_permutation_erase a : erase (inverse_permutation_c a) = inverse_permutation a.
Proof. unfold inverse_permutation_c, inverse_permutation. er. Qed.
Lemma plcp_extend_erase t a b l : erase (plcp_extend_c t a b l) = plcp_extend t a b l.
Proof. unfold plcp_extend_c, plcp_extend. er. Qed.
Lemma compute_plcp_erase t phi : erase (compute_plcp_c t phi) = compute_plcp t phi.
Proof.
  unfold compute_plcp_c, compute_plcp. er. apply erase_bind.
  - apply erase_for. intros pb [plcp len]. er. apply erase_bind; [apply plcp_extend_erase|]. intros. er.
  - intros [plcp len]. apply erase_free.
Qed.
Lemma compute_lcp_erase p sa : erase (compute_lcp_c p sa) = compute_lcp p sa.
Proof. unfold compute_lcp_c, compute_lcp. er. Qed.
Lemma bind_ok {A} (r : res A) : bind r (fun x => Ok x) = r.
Proof. now destruct r. Qed.
Lemma psv_chain_erase arr psv i p : erase (psv_chain_c arr psv i p) = psv_chain arr psv i p.
Proof. unfold psv_chain_c, psv_chain. rewrite bind_ok. er. Qed.
Lemma compute_psv_erase arr : erase (compute_psv_c arr) = compute_psv arr.
Proof. unfold compute_psv_c, compute_psv. er. apply erase_bind; [apply psv_chain_erase|]. intros. er. Qed.
Lemma compute_nsv_erase arr : erase (compute_nsv_c arr) = compute_nsv arr.
Proof. unfold compute_nsv_c, compute_nsv. er. apply erase_bind; [apply psv_chain_erase|]. intros. er. Qed.
Lemma lwg_next_erase g : erase (lwg_next_c g) = lwg_next g.
Proof.
  unfold lwg_next_c, lwg_next. destruct (lwg_length g =? 0); [reflexivity|]. destruct (lwg_stack g) as [|y s]; [reflexivity|].
  apply erase_bind; [unfold lwg_fill_c, lwg_fill; er|]. intros st1. apply erase_bind; [unfold lwg_trim_c, lwg_trim; er|].
  intros st2. destruct (rev st2) as [|x r]; [reflexivity|]. now destruct (255 <=? x).
Qed.
Lemma compute_lexparse_erase t p phi : erase (compute_lexparse_c t p phi) = compute_lexparse t p phi.
Proof. unfold compute_lexparse_c, compute_lexparse. apply erase_loop. intros [i f]. apply erase_free. Qed.
Lemma count_lexparse_erase sort t : erase (count_lexparse_main_c sort t) = count_lexparse_main sort t.
Proof.
  unfold count_lexparse_main_c, count_lexparse_main. apply erase_bind; [apply compute_phi_erase|]. intros phi.
  apply erase_bind; [apply compute_plcp_erase|]. intros plcp. apply compute_lexparse_erase.
Qed.
Lemma compute_lz77_erase t sa isa lcp nsv psv : erase (compute_lz77_c t sa isa lcp nsv psv) = compute_lz77 t sa isa lcp nsv psv.
Proof. unfold compute_lz77_c, compute_lz77. apply erase_loop. intros [i f]. apply erase_free. Qed.
Lemma decode_lz77_erase f : erase (decode_lz77_c f) = decode_lz77 f.
Proof. unfold decode_lz77_c, decode_lz77. er. destruct (lz_len i =? 0); er. Qed.
Lemma count_z_erase sort t : erase (count_z_main_c sort t) = count_z_main sort t.
Proof.
  unfold count_z_main_c, count_z_main. apply erase_bind; [apply inverse_permutation_erase|]. intros isa.
  apply erase_bind; [apply compute_psv_erase|]. intros psv. apply erase_bind; [apply compute_nsv_erase|]. intros nsv.
  apply erase_bind; [apply compute_phi_erase|]. intros phi. apply erase_bind; [apply compute_plcp_erase|]. intros plcp.
  apply erase_bind; [apply compute_lcp_erase|]. intros lcp. apply erase_bind; [apply compute_lz77_erase|]. intros f.
  apply erase_bind; [apply decode_lz77_erase|]. intros d. er.
Qed.
Lemma mus_erase sort t : erase (mus_main_c sort t) = mus_main sort t.
Proof.
  unfold mus_main_c, mus_main. apply erase_bind; [apply inverse_permutation_erase|]. intros isa.
  apply erase_bind; [apply compute_phi_erase|]. intros phi. apply erase_bind; [apply compute_plcp_erase|]. intros plcp.
  apply erase_bind; [apply compute_lcp_erase|]. intros lcp. unfold get_mus_c, get_mus. er.
Qed.
Lemma pop_loop_erase t sa lcp i n p e : erase (pop_loop_c t sa lcp i n p e) = pop_loop t sa lcp i n p e.
Proof. unfold pop_loop_c, pop_loop. apply erase_loop. intros [[[a b] c] d]. apply erase_free. Qed.
Lemma interval_step_erase t sa lcp i st : erase (interval_step_c t sa lcp i st) = interval_step t sa lcp i st.
Proof.
  unfold interval_step_c, interval_step. destruct st as [[n p] e]. cbv zeta. apply erase_bind; [apply pop_loop_erase|].
  intros [[[a b] c] d]. apply erase_free.
Qed.
Lemma pop_rest_erase t sa n p e : erase (pop_rest_c t sa n p e) = pop_rest t sa n p e.
Proof.
  unfold pop_rest_c, pop_rest. apply erase_bind.
  - apply erase_for. intros x [[a b] c]. apply erase_free.
  - intros [[a b] c]. apply erase_free.
Qed.
Lemma lcp_intervals_erase t sa lcp : erase (lcp_intervals_c t sa lcp) = lcp_intervals t sa lcp.
Proof.
  unfold lcp_intervals_c, lcp_intervals. er. apply erase_bind; [apply erase_for; intros; apply interval_step_erase|].
  intros [[n p] e]. apply erase_bind; [apply pop_rest_erase|]. intros [n' e']. apply erase_bind; [er|intros; er].
Qed.
