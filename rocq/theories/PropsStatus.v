(** PropsStatus.v : property theorem C100, the status messages of max_lyndon_word (unfinished/parallel.rs). *)
From Coq Require Import NArith.
From Verif Require Import Base SpecStr SpecBwt SpecIo SpecMain SpecPar SpecProbe SpecStatus LexFacts ModelIo ModelCore ModelMain ModelPar ModelPar2 ModelPar3.
From Verif Require Import DuvalProof LyndonProof BbwtProof IterProof LwgProof ParProof LockFacts ParProof2 ParProof3 ParProof7 ParProof8 PropsPar ParProof9.

Lemma out_run_run max q first sched : forall p p' bs, out_run max q first sched p = Some (p', bs) -> p_run max q sched p = Some p'.
Proof.
  induction sched as [|i sched IH]; intros p p' bs E; cbn [out_run p_run] in *; [now injection E as <- <-|].
  unfold out_step in E. destruct (p_step max q i p) as [p1|]; [|discriminate].
  destruct (out_run max q first sched p1) as [(p2, bs2)|] eqn:E2; [|discriminate]. injection E as <- <-. exact (IH p1 p2 bs2 E2).
Qed.
Lemma run_out_run max q first sched : forall p p', p_run max q sched p = Some p' -> exists bs, out_run max q first sched p = Some (p', bs).
Proof.
  induction sched as [|i sched IH]; intros p p' E; cbn [out_run p_run] in *; [injection E as <-; eauto|].
  unfold out_step. destruct (p_step max q i p) as [p1|]; [|discriminate]. destruct (IH p1 p' E) as (bs & ->). eauto.
Qed.
Lemma strong_nodup (L : list str) : StronglySorted lex_lt L -> NoDup L.
Proof.
  induction 1 as [|w L HS IH HF]; [constructor|]. constructor; [|exact IH]. intros C. rewrite Forall_forall in HF. exact (lex_lt_irrefl w (HF w C)).
Qed.
(** C100: the executions are those of C67 *)
Theorem C100_executions max q first sched p p' : p_run max q sched p = Some p' <-> exists bs, out_run max q first sched p = Some (p', bs).
Proof. split; [apply run_out_run|]. intros (bs & E). eapply out_run_run; eauto. Qed.
Print Assumptions C100_executions.
(** whatever the schedule: the messages *)
Theorem C100_messages max q first threads sched p bs : 1 <= max -> 1 <= q -> 1 <= threads ->
  out_run max q first sched (p_init max threads) = Some (p, bs) ->
  exists L cs texts, all_words max L /\ bs = map Ok texts /\
    Forall2 (fun c text => status_message first max c text /\ 0 < st_total c /\ st_total c mod q = 0 /\
               exists n, status_true max (threads - 1) (firstn n L) c) cs texts /\
    StronglySorted (fun c c' => st_total c <= st_total c') cs.
Proof.
  intros Hm Hq Hth E. destruct (m_reachable max q threads Hm Hth) as (B & L & HS & HIn & HL & HC & HI & HR).
  assert (HB : forall w, In w L -> lyndon w /\ Forall (fun c => c < 2) w) by (intros w Hw; apply HIn in Hw; tauto).
  assert (HG : Good max q L (p_init max threads)).
  { split; [reflexivity|]. exists B. split; [exact HI|]. intros t Ht. cbn in Ht. rewrite (repeat_spec _ _ _ Ht). split; intros []. }
  destruct (good_run max q L HL HB (strong_nodup L HS) first threads sched (p_init max threads) p bs (i32s_init max threads) HG) as (cs & HF & _ & HSo).
  { cbn. apply repeat_length. }
  { exact E. }
  assert (T : exists texts, bs = map Ok texts /\ Forall2 (fun c text => status_message first max c text /\ 0 < st_total c /\ st_total c mod q = 0 /\
               exists n, status_true max (threads - 1) (firstn n L) c) cs texts).
  { clear HSo E. induction HF as [|c b cs bs (text & -> & Hm1 & Hm2 & Hm3 & Hm4) HF (texts & -> & IH)]; [exists []; split; [reflexivity|constructor]|].
    exists (text :: texts). split; [reflexivity|]. constructor; auto. }
  destruct T as (texts & ET & HT). exists L, cs, texts. split; [split; auto|]. auto.
Qed.
Print Assumptions C100_messages.
(** after a panic of a worker nothing is printed any more *)
Theorem C100_silent_after_panic max q first threads sched p sched' p' bs : 1 <= max -> 1 <= threads ->
  p_run max q sched (p_init max threads) = Some p -> In MPanicked (m_threads (p_st p)) ->
  out_run max q first sched' p = Some (p', bs) -> bs = [].
Proof.
  intros Hm Hth E HP E'. destruct (m_reachable max q threads Hm Hth) as (B & L & HS & HIn & HL & HC & HI & HR).
  assert (HG : Good max q L (p_init max threads)).
  { split; [reflexivity|]. exists B. split; [exact HI|]. intros t Ht. cbn in Ht. rewrite (repeat_spec _ _ _ Ht). split; intros []. }
  enough (G : forall sched p0, i32s (p_st p0) = true -> (Good max q L p0 \/ Mute p0) -> p_run max q sched p0 = Some p -> Mute p).
  { eapply mute_run; [|exact E']. eapply G; [|left; exact HG|exact E]. apply i32s_init. }
  induction sched0 as [|i sc IH]; intros p0 Hok H0 E0; cbn [p_run] in E0.
  - injection E0 as ->. destruct H0 as [(_ & m & HM & _)|H0]; [exfalso|exact H0].
    destruct HM as (L1 & L2 & _ & _ & _ & _ & _ & _ & _ & _ & HGd & _). exact (proj1 (Forall_forall _ _) HGd _ HP).
  - destruct (p_step max q i p0) as [p1|] eqn:E1; [|discriminate]. destruct H0 as [H0|H0].
    + destruct (good_step max q L HL i p0 p1 Hok H0 E1) as (Hok1 & [(HG1 & _)|(HM & _)]); apply (IH p1 Hok1); auto.
    + apply (IH p1); [|right; eapply mute_step; eauto|exact E0].
      destruct p0 as (s0, poison). cbn [p_st] in *. destruct (p_cases max q i s0 poison p1 E1 Hok) as (s1 & _ & [(-> & Hok1)|((HCn & _) & _)]); [exact Hok1|].
      unfold i32s. now rewrite HCn.
Qed.
Print Assumptions C100_silent_after_panic.

(** ** what the messages do not say *)
(** thread i moves until it is at a place satisfying f *)
Fixpoint until (max q : nat) (f : mpc -> bool) (i fuel : nat) (acc : list nat) (p : pst) : list nat * pst :=
  match fuel with
  | 0 => (acc, p)
  | S fuel => match nth_error (m_threads (p_st p)) i with
              | Some t => if f t then (acc, p) else match p_step max q i p with Some p' => until max q f i fuel (acc ++ [i]) p' | None => (acc, p) end
              | None => (acc, p)
              end
  end.
Fixpoint follow (max q : nat) (plan : list (nat * (mpc -> bool))) (acc : list nat) (p : pst) : list nat :=
  match plan with
  | [] => acc
  | (i, f) :: rest => let '(acc', p') := until max q f i 200 acc p in follow max q rest acc' p'
  end.
Definition at_num (t : mpc) : bool := match t with MWantNum _ => true | _ => false end.
Definition at_total2 (t : mpc) : bool := match t with MWantTotal2 => true | _ => false end.
Definition at_print (t : mpc) : bool := match t with MPrint => true | _ => false end.
Definition at_fetch (t : mpc) : bool := match t with MFetch | MFinished => true | _ => false end.
Definition at_end (t : mpc) : bool := match t with MFinished => true | _ => false end.

(** the labels are one too small: "length=2" shows the two binary Lyndon words of length 3 (001 and 011); there is one of length 2 *)
Theorem C100_label_refuted : exists sched p text, out_run 3 5 2 sched (p_init 3 1) = Some (p, [Ok text]) /\
  text = lines [ascii "total_count=5"; ascii "length=2 lyndon_words=2 bwt_wins=2 bbwt_wins=0 ties=4"; ascii "length=2 text= bwt_runs=0 bbwt_runs=0"] /\
  number_of (binary_lyndon 2) 1.
Proof.
  exists (follow 3 5 [(0, at_end)] [] (p_init 3 1)). eexists. eexists. split; [vm_compute; reflexivity|]. split; [reflexivity|].
  exists [[0;1]]. split; [repeat constructor; intros []|]. split; [|reflexivity]. intros w. split.
  - intros [<-|[]]. split; [|split; [reflexivity|repeat constructor]]. split; [discriminate|]. intros u v E Hu Hv.
    destruct u as [|x [|y u]]; [easy| |].
    + injection E as <- <-. constructor. lia.
    + injection E as <- <- E. destruct u; [|discriminate]. cbn in E. congruence.
  - intros ((_ & H1) & H2 & H3). destruct w as [|a [|b [|c w]]]; try discriminate. inversion H3 as [|? ? Ha H4]; subst. inversion H4 as [|? ? Hb _]; subst.
    pose proof (H1 [a] [b] eq_refl ltac:(discriminate) ltac:(discriminate)) as H. left.
    inversion H as [| |? ? ? H5]; subst; [|inversion H5]. assert (a = 0) by lia. assert (b = 1) by lia. now subst.
Qed.
Print Assumptions C100_label_refuted.
(** with several workers a multiple of the interval can be passed without a message: here no message at all although 2 and 4 were passed *)
Theorem C100_every_interval_refuted : exists sched p, out_run 3 2 0 sched (p_init 3 2) = Some (p, []) /\ p_done p = true /\ m_total (p_st p) = 5.
Proof.
  exists (follow 3 2 [(0, at_num); (0, at_total2); (0, at_fetch); (0, at_num); (1, at_num); (0, at_total2); (1, at_total2); (0, at_fetch); (1, at_fetch);
    (0, at_num); (1, at_num); (0, at_total2); (1, at_total2); (0, at_fetch); (1, at_fetch); (0, at_end); (1, at_end)] [] (p_init 3 2)).
  eexists. split; [vm_compute; reflexivity|]. split; reflexivity.
Qed.
Print Assumptions C100_every_interval_refuted.
(** and the same total can be announced twice *)
Theorem C100_once_refuted : exists sched p t, out_run 3 2 3 sched (p_init 3 2) = Some (p, [Ok t; Ok t]) /\ t = lines [ascii "total_count=2"].
Proof.
  exists (follow 3 2 [(0, at_num); (1, at_num); (0, at_total2); (1, at_total2); (0, at_fetch); (1, at_fetch)] [] (p_init 3 2)).
  eexists. eexists. split; [vm_compute; reflexivity|]. reflexivity.
Qed.
Print Assumptions C100_once_refuted.
Example C100_case : exists p text, out_run 4 8 2 (follow 4 8 [(0, at_end)] [] (p_init 4 1)) (p_init 4 1) = Some (p, [Ok text]) /\
  text = lines [ascii "total_count=8"; ascii "length=2 lyndon_words=2 bwt_wins=2 bbwt_wins=0 ties=4"; ascii "length=2 text= bwt_runs=0 bbwt_runs=0";
    ascii "length=3 lyndon_words=3 bwt_wins=4 bbwt_wins=3 ties=5"; ascii "length=3 text=bbaa bwt_runs=4 bbwt_runs=2"].
Proof. eexists. eexists. split; [vm_compute; reflexivity|]. reflexivity. Qed.
