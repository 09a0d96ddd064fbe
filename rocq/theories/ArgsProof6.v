(** ArgsProof6.v : the command line of enumerate. *)
From Verif Require Import Base SpecStr SpecIo SpecMain SpecArgs SpecArgs2 ModelMain ModelResult ModelArgs ArgsProof ArgsProof2 ArgsProof3 ArgsProof4.
From Coq Require Import NArith.

Lemma usize_ok : type_ok Usize.
Proof. intros names E. discriminate. Qed.
Lemma usize_values vs : Forall (fun v => exists x, reads_as Usize v x) vs -> Forall (fun v => ~ hyphened v) vs.
Proof.
  intros F. eapply Forall_impl; [|exact F]. intros v (x & H) (c & r & ->). inversion H; subst.
  - destruct H0 as (_ & H0 & _). inversion H0; subst. lia.
Qed.
Definition read_all (vs : list str) (ns : list N) : Prop := Forall2 (reads_as Usize) vs (map VNum ns).
Lemma usize_read v : (exists n, parse_value Usize v = Some (VNum n) /\ reads_as Usize v (VNum n)) \/ (parse_value Usize v = None /\ forall x, ~ reads_as Usize v x).
Proof.
  destruct (parse_value Usize v) as [x|] eqn:E.
  - left. pose proof (proj1 (parse_value_ok Usize v x usize_ok) E) as R. inversion R; subst; exists n; auto.
  - right. split; [reflexivity|]. intros x R. apply (parse_value_ok Usize v x usize_ok) in R. congruence.
Qed.
Definition pos3 := [alphabet_size_pos; min_len_pos; max_len_pos].
Definition ends_with (vs : list str) : pr matches := r <== do_pos pos3 [] vs ; if required_present (options enumerate_cmd ++ positionals enumerate_cmd) (snd r) then Go (snd r) else Refuse.
Definition two (a b : N) : matches := [(arg_id alphabet_size_pos, [VNum a]); (arg_id min_len_pos, [VNum b])].
Definition three (a b c : N) : matches := two a b ++ [(arg_id max_len_pos, [VNum c])].
Lemma react_pos m a v : arg_action a = Single -> arg_many a = false -> arg_type a = Usize -> lookup m (arg_id a) = None ->
  react m a [v] = match parse_value Usize v with Some x => Go (add_values m (arg_id a) [x]) | None => Refuse end.
Proof. intros E1 E2 E3 E4. unfold react. rewrite E1, E2, E3, E4. cbn [length Nat.eqb orb andb negb parse_values]. destruct (parse_value Usize v); reflexivity. Qed.
Lemma ends_with_ok vs m : ends_with vs = Go m <->
  (exists a b, read_all vs [a; b] /\ m = two a b) \/ (exists a b c, read_all vs [a; b; c] /\ m = three a b c).
Proof.
  split.
  - intros E. unfold ends_with, pos3 in E. destruct vs as [|x [|y [|z [|t vs]]]]; cbn [do_pos] in E.
    + discriminate E.
    + rewrite react_pos in E by reflexivity. destruct (usize_read x) as [(a & Ea & Ra)|(Ea & _)]; rewrite Ea in E; discriminate E.
    + left. rewrite react_pos in E by reflexivity. destruct (usize_read x) as [(a & Ea & Ra)|(Ea & _)]; rewrite Ea in E; [|discriminate E]. cbn [pbind] in E.
      rewrite react_pos in E by reflexivity. destruct (usize_read y) as [(b & Eb & Rb)|(Eb & _)]; rewrite Eb in E; [|discriminate E]. exists a, b. split; [repeat (constructor; [assumption|]); constructor|]. now injection E as <-.
    + right. rewrite react_pos in E by reflexivity. destruct (usize_read x) as [(a & Ea & Ra)|(Ea & _)]; rewrite Ea in E; [|discriminate E]. cbn [pbind] in E.
      rewrite react_pos in E by reflexivity. destruct (usize_read y) as [(b & Eb & Rb)|(Eb & _)]; rewrite Eb in E; [|discriminate E]. cbn [pbind] in E.
      rewrite react_pos in E by reflexivity. destruct (usize_read z) as [(c & Ec & Rc)|(Ec & _)]; rewrite Ec in E; [|discriminate E]. exists a, b, c. split; [repeat (constructor; [assumption|]); constructor|]. now injection E as <-.
    + rewrite react_pos in E by reflexivity. destruct (usize_read x) as [(a & Ea & Ra)|(Ea & _)]; rewrite Ea in E; [|discriminate E]. cbn [pbind] in E.
      rewrite react_pos in E by reflexivity. destruct (usize_read y) as [(b & Eb & Rb)|(Eb & _)]; rewrite Eb in E; [|discriminate E]. cbn [pbind] in E.
      rewrite react_pos in E by reflexivity. destruct (usize_read z) as [(c & Ec & Rc)|(Ec & _)]; rewrite Ec in E; discriminate E.
  - intros [(a & b & R & ->)|(a & b & c & R & ->)].
    + inversion R as [|x ? us ? R1 R']; subst. inversion R' as [|y ? us' ? R2 R'']; subst. inversion R''; subst. apply (parse_value_ok Usize _ _ usize_ok) in R1, R2.
      unfold ends_with, pos3. cbn [do_pos]. rewrite react_pos, R1 by reflexivity. cbn [pbind]. rewrite react_pos, R2 by reflexivity. reflexivity.
    + inversion R as [|x ? us ? R1 R']; subst. inversion R' as [|y ? us' ? R2 R'']; subst. inversion R'' as [|z ? us'' ? R3 R3']; subst. inversion R3'; subst. apply (parse_value_ok Usize _ _ usize_ok) in R1, R2, R3.
      unfold ends_with, pos3. cbn [do_pos]. rewrite react_pos, R1 by reflexivity. cbn [pbind]. rewrite react_pos, R2 by reflexivity. cbn [pbind]. rewrite react_pos, R3 by reflexivity. reflexivity.
Qed.
(** the values of the line, with one "--" left out *)
Definition plain_line (line vs : list str) : Prop := line = vs \/ exists us1 us2, vs = us1 ++ us2 /\ line = us1 ++ [[45; 45]] ++ us2.
Lemma enumerate_parse line vs : plain_line line vs -> Forall (fun v => ~ hyphened v) vs -> parse enumerate_cmd line = ends_with vs.
Proof.
  intros [->|(us1 & us2 & -> & ->)] F; unfold parse, ends_with.
  - rewrite <- (app_nil_r vs) at 1. rewrite pf_positional by exact F. destruct (do_pos _ _ _) as [r| |]; reflexivity.
  - apply Forall_app in F. destruct F as (F1 & F2). rewrite pf_positional by exact F1. rewrite do_pos_app, pbind_assoc. destruct (do_pos (positionals enumerate_cmd) [] us1) as [r| |] eqn:E; cbn [pbind]; fold pos3 in E |- *.
    + cbn [positionals enumerate_cmd] in E. fold pos3 in E. rewrite E. cbn [pbind app]. rewrite pf_dash, pf_trailing. reflexivity.
    + cbn [positionals enumerate_cmd] in E. fold pos3 in E. now rewrite E.
    + cbn [positionals enumerate_cmd] in E. fold pos3 in E. now rewrite E.
Qed.
Lemma enumerate_only line m : parse enumerate_cmd line = Go m -> exists vs, plain_line line vs /\ ends_with vs = Go m.
Proof.
  intros E. destruct (split_hyphened line) as [(us & t & vs & -> & F & H)|F].
  - unfold parse in E. rewrite pf_positional in E by exact F. destruct (do_pos (positionals enumerate_cmd) [] us) as [r| |] eqn:D; try discriminate E. cbn [pbind] in E.
    destruct (hyphened_cases t H) as [(s & N & ->)|[->|(d & cs & N & ->)]].
    + exfalso. rewrite pf_long in E by exact N. unfold long in E. destruct (split_eq s) as (n, att).
      destruct (by_long (options enumerate_cmd) n) as [a|] eqn:B; [|discriminate E]. apply by_long_ok in B. destruct B as (B & _).
      destruct B as [<-|[<-|[]]]; cbn [takes_value help_arg version_arg arg_action] in E; destruct att; discriminate E.
    + rewrite pf_dash, pf_trailing in E. exists (us ++ vs). split; [right; exists us, vs; auto|]. unfold ends_with. change pos3 with (positionals enumerate_cmd). rewrite do_pos_app, D. exact E.
    + exfalso. rewrite pf_short in E by exact N. cbn [shorts] in E. destruct (by_short (options enumerate_cmd) d) as [a|] eqn:B; [|discriminate E]. apply by_short_ok in B. destruct B as (B & _).
      destruct B as [<-|[<-|[]]]; discriminate E.
  - exists line. split; [now left|]. now rewrite <- (enumerate_parse line line (or_introl eq_refl) F).
Qed.
