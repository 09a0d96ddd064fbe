(** ScriptProof.v : the calls of gen_artificial.sh. *)
From Verif Require Import Base SpecStr SpecWord SpecIo SpecMain SpecArgs SpecFs ModelWord ModelIo ModelCore ModelTools ModelLz ModelMain ModelEntropy ModelResult ModelFs ModelArgs ModelArgs2 ModelScripts FsProof PropsWord2.
From Coq Require Import NArith.

Definition call_word (nm : str) : word_name :=
  match find (fun p => if list_eq_dec Nat.eq_dec (fst p) nm then true else false)
    (combine (map fst (combine word_names word_variants)) word_variants) with Some p => snd p | None => Fibonacci end.
Definition call_args (kn : nat * str) : option (word_name * nat * option str) :=
  match parse word_cmd [lit "-n"; snd kn; lit "-k"; two_digits (fst kn)] with
  | Go m => Some (arg_word m name_opt, arg_num m k_opt 0, arg_string m outfilename) | _ => None end.
Lemma calls_parsed : map call_args script_calls = map (fun kn => Some (call_word (snd kn), fst kn, None)) script_calls.
Proof. vm_compute. reflexivity. Qed.
Lemma call_runs file_of kn : In kn script_calls ->
  word_program file_of [lit "-n"; snd kn; lit "-k"; two_digits (fst kn)] = Ran (word_io (call_word (snd kn)) (fst kn) None).
Proof.
  intros H. assert (E : call_args kn = Some (call_word (snd kn), fst kn, None)).
  { pose proof calls_parsed as M. revert H M. generalize script_calls. intros l. induction l as [|a l IH]; intros H M; [destruct H|]. cbn [map] in M. injection M as E M. destruct H as [->|H]; auto. }
  unfold call_args in E. unfold word_program, on_args, arg_file. destruct (parse _ _) as [m| |]; try discriminate.
  injection E as E1 E2 E3. rewrite E1, E2, E3. reflexivity.
Qed.
Lemma call_bound kn : In kn script_calls -> fst kn <= 20 /\ In (snd kn) script_names.
Proof.
  unfold script_calls. rewrite in_flat_map. intros (k & Hk & H). apply in_map_iff in H. destruct H as (nm & <- & H).
  apply in_seq in Hk. cbn [fst snd]. split; [lia|exact H].
Qed.
Lemma in_calls k nm : k <= 20 -> In nm script_names -> In (k, nm) script_calls.
Proof. intros Hk H. unfold script_calls. apply in_flat_map. exists k. split; [apply in_seq; lia|]. apply in_map_iff. eauto. Qed.
Lemma small_writes v k : k <= 20 -> writes v k.
Proof. intros H. left. destruct v; cbn [writes_up_to]; lia. Qed.
Lemma call_ok file_of folder kn : In kn script_calls -> exists w, word_main (call_word (snd kn)) (fst kn) = Ok w /\ described (call_word (snd kn)) (fst kn) w /\
  script_call file_of folder kn = CreateOut (Some (file_of (script_path folder (snd kn) (fst kn)))) (WriteBuf w (Ret tt)).
Proof.
  intros H. destruct (call_bound kn H) as (Hk & _).
  destruct (C64_word_program (call_word (snd kn)) (fst kn) (small_writes _ _ Hk)) as (w & E & D). exists w. split; [exact E|]. split; [exact D|].
  unfold script_call, redirect. rewrite (call_runs file_of kn H). unfold word_io, write_buf. rewrite E. reflexivity.
Qed.
Lemma emits_file f : forall b w t, dst w = KFile f -> files w f = Some t ->
  dst (emits w b) = KFile f /\ files (emits w b) f = Some (t ++ b) /\ (forall g, g <> f -> files (emits w b) g = files w g) /\
  stdout (emits w b) = stdout w /\ stdin (emits w b) = stdin w.
Proof.
  induction b as [|c b IH]; intros w t Hd Hf; [rewrite app_nil_r; repeat split; auto|].
  unfold emits in *. cbn [fold_left].
  assert (E : emit w c = W (put (files w) f (t ++ [c])) (stdin w) (stdout w) (src w) (dst w)) by (unfold emit; now rewrite Hd, Hf).
  destruct (IH (emit w c) (t ++ [c])) as (A & B & C & D & F).
  - rewrite E. exact Hd.
  - rewrite E. apply put_eq.
  - split; [exact A|]. split; [rewrite B, <- app_assoc; reflexivity|]. split.
    + intros g Hg. rewrite (C g Hg), E. apply put_ne, Hg.
    + rewrite D, F, E. auto.
Qed.
(** one call without failures *)
Lemma call_run file_of folder kn w0 : In kn script_calls -> let f := file_of (script_path folder (snd kn) (fst kn)) in
  exists w word, run (script_call file_of folder kn) w0 = (w, Ok tt) /\ described (call_word (snd kn)) (fst kn) word /\ files w f = Some word /\
    (forall g, g <> f -> files w g = files w0 g) /\ stdout w = stdout w0 /\ stdin w = stdin w0.
Proof.
  intros H f. destruct (call_ok file_of folder kn H) as (word & _ & D & ->).
  destruct (emits_file f word (create_out w0 (Some f)) []) as (A & B & C & E & F); [reflexivity|apply put_eq|].
  exists (emits (create_out w0 (Some f)) word), word. split; [reflexivity|]. split; [exact D|]. split; [exact B|]. split.
  - intros g Hg. rewrite (C g Hg). apply put_ne, Hg.
  - rewrite E, F. auto.
Qed.
Section Script.
  Context (file_of : str -> name) (folder : str).
  Let path (kn : nat * str) := file_of (script_path folder (snd kn) (fst kn)).
  Lemma calls_run : forall l w0, (forall c, In c l -> In c script_calls) -> NoDup (map path l) -> exists w, run (calls_io file_of folder l) w0 = (w, Ok tt) /\
    (forall c, In c l -> exists word, files w (path c) = Some word /\ described (call_word (snd c)) (fst c) word) /\
    (forall g, ~ In g (map path l) -> files w g = files w0 g) /\ stdout w = stdout w0 /\ stdin w = stdin w0.
  Proof.
    induction l as [|c l IH]; intros w0 H ND; cbn [calls_io run map] in *.
    - exists w0. repeat split; auto. intros c [].
    - destruct (call_run file_of folder c w0 (H c (or_introl eq_refl))) as (w1 & word & R & D & F & K & S1 & S2).
      rewrite run_seq, R. inversion ND as [|? ? N1 N2]; subst.
      destruct (IH w1 (fun c Hc => H c (or_intror Hc)) N2) as (w & R' & A & B & C & E). exists w. split; [exact R'|]. split; [|split; [|split; congruence]].
      + intros c' [<-|Hc]; [|auto]. exists word. split; [|exact D]. unfold path in *. rewrite (B _ N1). exact F.
      + intros g Hg. rewrite (B g (fun X => Hg (or_intror X))). apply K. intros ->. apply Hg. now left.
  Qed.
  (** every point of an execution *)
  Definition between (w0 w : world) : Prop := stdout w = stdout w0 /\ stdin w = stdin w0 /\ forall g, files w g = files w0 g \/
    exists c word out, In c script_calls /\ g = path c /\ described (call_word (snd c)) (fst c) word /\ files w g = Some out /\ prefix out word.
  Lemma calls_safe w0 : forall l w, (forall c, In c l -> In c script_calls) -> between w0 w ->
    safe (between w0) (fun _ w => between w0 w) (calls_io file_of folder l) w.
  Proof.
    induction l as [|c l IH]; intros w H I; cbn [calls_io]; [cbn; auto|]. apply safe_seq.
    destruct (call_ok file_of folder c (H c (or_introl eq_refl))) as (word & _ & D & ->). fold (path c). set (f := path c). cbn [safe].
    assert (P : forall b1 b2, word = b1 ++ b2 -> between w0 (emits (create_out w (Some f)) b1)).
    { intros b1 b2 E. destruct (emits_file f b1 (create_out w (Some f)) []) as (A & B & C & S1 & S2); [reflexivity|apply put_eq|].
      destruct I as (I1 & I2 & I3). split; [rewrite S1; exact I1|]. split; [rewrite S2; exact I2|]. intros g.
      destruct (Nat.eq_dec g f) as [->|N].
      - right. exists c, word, b1. split; [apply H; now left|]. split; [reflexivity|]. split; [exact D|]. split; [exact B|]. now exists b2.
      - rewrite (C g N). change (files (create_out w (Some f)) g) with (put (files w) f [] g). rewrite put_ne by exact N. apply I3. }
    split; [exact I|]. split; [exact P|]. intros b1 b2 E. split; [eauto|]. apply IH; [intros; apply H; now right|eauto].
  Qed.
End Script.
Lemma two_digits_inj j k : two_digits j = two_digits k -> j = k.
Proof.
  unfold two_digits. intros E. assert (E1 : j / 10 = k / 10) by (apply (f_equal (hd 0)) in E; cbn [hd] in E; lia).
  assert (E2 : j mod 10 = k mod 10) by (apply (f_equal (fun l => nth 1 l 0)) in E; cbn [nth] in E; lia). clear E. pose proof (Nat.div_mod j 10 ltac:(discriminate)). pose proof (Nat.div_mod k 10 ltac:(discriminate)). lia. Qed.
Lemma dot_split (x y u v : str) : ~ In 46 x -> ~ In 46 y -> x ++ 46 :: u = y ++ 46 :: v -> x = y /\ u = v.
Proof.
  revert y. induction x as [|a x IH]; intros [|b y] Hx Hy E; cbn [app] in E.
  - now injection E as <-.
  - injection E as <- E. exfalso. apply Hy. now left.
  - injection E as -> E. exfalso. apply Hx. now left.
  - injection E as <- E. destruct (IH y) with (3 := E) as [-> ->]; auto; intros X; [apply Hx|apply Hy]; now right.
Qed.
Lemma names_dotless nm : In nm script_names -> ~ In 46 nm.
Proof.
  assert (F : forallb (fun nm => negb (existsb (Nat.eqb 46) nm)) script_names = true) by (vm_compute; reflexivity).
  intros H X. rewrite forallb_forall in F. specialize (F nm H). apply Bool.negb_true_iff in F.
  assert (existsb (Nat.eqb 46) nm = true) by (apply existsb_exists; exists 46; auto). congruence.
Qed.
Lemma path_inj folder a b : In a script_calls -> In b script_calls -> script_path folder (snd a) (fst a) = script_path folder (snd b) (fst b) -> a = b.
Proof.
  intros Ha Hb E. unfold script_path in E. apply app_inv_head in E. apply app_inv_head in E.
  change (lit ".") with [46] in E. cbn [app] in E.
  apply dot_split in E; [|apply names_dotless; now apply call_bound..]. destruct E as (E1 & E2). apply two_digits_inj in E2.
  destruct a, b. cbn in *. congruence.
Qed.
Lemma calls_nodup : NoDup script_calls.
Proof.
  assert (D : forall (l : list (nat * str)), (fix go l := match l with [] => true | x :: l => negb (existsb (fun y => (fst x =? fst y) && (if list_eq_dec Nat.eq_dec (snd x) (snd y) then true else false)) l) && go l end) l = true -> NoDup l).
  { induction l as [|x l IH]; intros H; constructor; apply andb_prop in H; destruct H as [H1 H2]; auto. intros Hin. apply Bool.negb_true_iff in H1.
    assert (X : existsb (fun y => (fst x =? fst y) && (if list_eq_dec Nat.eq_dec (snd x) (snd y) then true else false)) l = true).
    { apply existsb_exists. exists x. split; [exact Hin|]. rewrite Nat.eqb_refl. destruct (list_eq_dec _ _ _); [reflexivity|congruence]. }
    congruence. }
  apply D. vm_compute. reflexivity.
Qed.
