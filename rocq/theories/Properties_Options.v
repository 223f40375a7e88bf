(* C59: solver options. *)
From Coq Require Import Ascii String.
From stdpp Require Import base list strings.
From Verif Require Import Base M_Options S_Options.
Open Scope nat_scope. Open Scope list_scope.

Lemma join_cons w words : words ≠ [] → join (w :: words) = w ++ " "%char :: join words.
Proof. by destruct words. Qed.

(* a line has one list of words *)
Lemma words_of_unique line words words' : words_of line words → words_of line words' → words = words'.
Proof.
  intros (Hn & -> & Hs) (Hn' & E & Hs'). revert words' Hn' E Hs'.
  induction words as [|w words IH]; [done|]. intros [|w' words'] Hn' E Hs'; [done|].
  apply Forall_cons in Hs as [Hw Hs], Hs' as [Hw' Hs'].
  assert (Hsplit : ∀ (a b r r' : list ascii), " "%char ∉ a → " "%char ∉ b → a ++ " "%char :: r = b ++ " "%char :: r' → a = b ∧ r = r').
  { induction a as [|x a IHa]; intros [|y b] r r' Ha Hb Heq; cbn in Heq; injection Heq.
    - done.
    - intros _ <-. exfalso. apply Hb. left.
    - intros _ ->. exfalso. apply Ha. left.
    - intros Heq' ->. apply not_elem_of_cons in Ha as [_ Ha], Hb as [_ Hb]. destruct (IHa b r r' Ha Hb Heq') as [-> ->]. done. }
  destruct words as [|v words], words' as [|v' words'].
  - cbn in E. by subst.
  - rewrite (join_cons w') in E by done. cbn in E. exfalso. apply Hw. rewrite E. apply elem_of_app. right. left.
  - rewrite (join_cons w) in E by done. cbn in E. exfalso. apply Hw'. rewrite <- E. apply elem_of_app. right. left.
  - rewrite !join_cons in E by done. apply Hsplit in E as [-> E]; [|done..]. f_equal. by apply IH.
Qed.

Local Lemma split_loop_ok fuel options pos acc :
  pos ≤ length options → length options - pos ≤ fuel →
  ∃ words, split_loop fuel options pos acc = Ok (acc ++ words) ∧ words_of (drop pos options) words.
Proof.
  revert pos acc. induction fuel as [|fuel IH]; intros pos acc Hpos Hf; cbn [split_loop];
    unfold find_from; destruct (list_find (eq " "%char) (drop pos options)) as [[i x]|] eqn:Ef; cbn [fmap option_fmap option_map fst snd].
  - apply list_find_Some in Ef as [Hi _]. apply lookup_lt_Some in Hi. rewrite drop_length in Hi. lia.
  - unfold substr. rewrite decide_False by lia. cbn [rbind]. eexists. split; [done|]. split_and!; [done|done|].
    apply Forall_singleton. intros Hin. apply (list_find_None (eq " "%char)) in Ef. rewrite Forall_forall in Ef. by apply (Ef _ Hin).
  - apply list_find_Some in Ef as (Hi & <- & Hno). pose proof (lookup_lt_Some _ _ _ Hi) as Hlt. rewrite drop_length in Hlt.
    unfold substr. rewrite decide_False by lia. cbn [rbind].
    destruct (IH (pos + i + 1) (acc ++ [take i (drop pos options)])) as (words & E & Hne & Hj & Hs); [lia..|].
    replace (pos + i - pos) with i by lia. exists (take i (drop pos options) :: words). rewrite E, <- app_assoc. split; [done|].
    split_and!; [done| |].
    + rewrite join_cons by done. rewrite <- Hj. rewrite <- (take_drop_middle (drop pos options) i " "%char) at 1 by done.
      rewrite drop_drop. do 3 f_equal. lia.
    + constructor; [|done]. intros Hin. apply elem_of_list_lookup in Hin as [k Hk].
      apply lookup_take_Some in Hk as [Hk Hki]. by apply (Hno k _ Hk).
  - unfold substr. rewrite decide_False by lia. cbn [rbind]. eexists. split; [done|]. split_and!; [done|done|].
    apply Forall_singleton. intros Hin. apply (list_find_None (eq " "%char)) in Ef. rewrite Forall_forall in Ef. by apply (Ef _ Hin).
Qed.

(* The line given to PETSc has the words of the options in their order and a last, empty one; the word
   naming an option [name] now names [prefix ++ name]; the others are as they were. *)
Theorem C59_words (options prefix : list ascii) (words : list (list ascii)) :
  words_of options words →
  ∃ line words', prepend_options_prefix options prefix = Ok line ∧ line = join (words' ++ [[]]) ∧
    Forall2 (λ w w', match option_name w with
       | Some name => option_name w' = Some (prefix ++ name)
       | None => w' = w
       end) words words'.
Proof.
  intros Hw. destruct (split_loop_ok (length options) options 0 [] ltac:(lia) ltac:(lia)) as (ws & E & Hws).
  rewrite drop_0 in Hws. rewrite (words_of_unique _ _ _ Hws Hw) in E. clear ws Hws.
  exists (join ((prefix_word prefix <$> words) ++ [[]])), (prefix_word prefix <$> words).
  unfold prepend_options_prefix, split_words. rewrite E. cbn [rbind app]. split_and!.
  - f_equal. generalize (prefix_word prefix <$> words). intros ws. 
    assert (Hg : ∀ s, foldl (λ s word, s ++ word ++ [" "%char]) s ws = s ++ join (ws ++ [[]])).
    { induction ws as [|w ws IH]; intros s; cbn [foldl]; [by rewrite app_nil_r|].
      rewrite IH. change ((w :: ws) ++ [[]]) with (w :: (ws ++ [[]])). rewrite join_cons by (by destruct ws).
      by rewrite <- !app_assoc. }
    apply Hg.
  - done.
  - apply Forall2_fmap_r, Forall_Forall2_diag, Forall_true. intros w. cbn.
    destruct w as [|c rest]; [done|]. cbn. destruct (decide (c = "-"%char)); done.
Qed.
Print Assumptions C59_words.

(* every line has its words, so the theorem is about every line *)
Theorem C59_total (options : list ascii) : ∃ words, words_of options words.
Proof.
  destruct (split_loop_ok (length options) options 0 [] ltac:(lia) ltac:(lia)) as (ws & _ & Hws).
  rewrite drop_0 in Hws. by exists ws.
Qed.
Print Assumptions C59_total.

(* if the prefix has no space, the words of the new line are those *)
Theorem C59_same_number (options prefix : list ascii) (words : list (list ascii)) line :
  words_of options words → " "%char ∉ prefix → prepend_options_prefix options prefix = Ok line →
  ∃ words', words_of line (words' ++ [[]]) ∧ length words' = length words.
Proof.
  intros Hw Hp E. destruct (C59_words options prefix words Hw) as (line' & ws & E' & Hl & HF).
  rewrite E in E'. injection E' as <-. exists ws. split; [|symmetry; by eapply Forall2_length].
  split_and!; [by destruct ws|done|]. apply Forall_app. split; [|apply Forall_singleton; by intros ?%elem_of_nil].
  destruct Hw as (_ & _ & Hs). clear -HF Hs Hp. induction HF as [|w w' ws ws' Hww' _ IH]; [done|].
  apply Forall_cons in Hs as [Hw Hs]. constructor; [|by apply IH].
  unfold option_name in Hww'. destruct w as [|c w]; [by subst|].
  destruct (decide (c = "-"%char)) as [->|]; [|by subst].
  destruct w' as [|c' w']; [done|]. destruct (decide (c' = "-"%char)) as [->|]; [|done]. injection Hww' as ->.
  apply not_elem_of_cons in Hw as [? ?]. apply not_elem_of_cons. split; [done|]. rewrite elem_of_app; tauto.
Qed.
Print Assumptions C59_same_number.

(* the options of the solver of a system: the option [name] becomes [label_name] *)
Theorem C59_set_options (label options : list ascii) (words : list (list ascii)) :
  words_of options words →
  ∃ line words', set_options label options = Ok line ∧ line = join (words' ++ [[]]) ∧
    Forall2 (λ w w', match option_name w with
       | Some name => option_name w' = Some (label ++ list_ascii_of_string "_" ++ name)
       | None => w' = w
       end) words words'.
Proof.
  intros Hw. destruct (C59_words options (label ++ ["_"%char]) words Hw) as (line & ws & E & Hl & HF).
  exists line, ws. split_and!; [done|done|]. eapply Forall2_impl; [exact HF|]. cbn. intros w w'.
  destruct (option_name w); [|done]. by rewrite <- app_assoc.
Qed.
Print Assumptions C59_set_options.

(* an option with a value, and one without *)
Example C59_case :
  set_options (list_ascii_of_string "mysystem") (list_ascii_of_string "-ksp_type preonly -pc_type cholesky -ksp_monitor") =
    Ok (list_ascii_of_string "-mysystem_ksp_type preonly -mysystem_pc_type cholesky -mysystem_ksp_monitor ").
Proof. vm_compute. reflexivity. Qed.

(* Words that start with a dash need not name an option: a negative value is prefixed too. *)
Example C59_negative_value :
  set_options (list_ascii_of_string "mysystem") (list_ascii_of_string "-ksp_gmres_restart 5 -pc_shift -1") =
    Ok (list_ascii_of_string "-mysystem_ksp_gmres_restart 5 -mysystem_pc_shift -mysystem_1 ").
Proof. vm_compute. reflexivity. Qed.
