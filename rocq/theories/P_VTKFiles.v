(* Proofs about the names and the contents of the files of the writers. *)
From stdpp Require Import base gmap list strings.
From Coq Require Import Ascii Lia.
From Verif Require Import Base M_Topology M_Options M_VTK M_VTKFiles S_VTKFiles.
Local Open Scope nat_scope.

(* ---- names ---- *)
Definition is_digit (c : ascii) : Prop := ∃ d, d < 10 ∧ c = digit d.
Lemma digit_value d : d < 10 → nat_of_ascii (digit d) = 48 + d.
Proof. intros H. unfold digit. apply nat_ascii_embedding. lia. Qed.
Lemma digit_inj d e : d < 10 → e < 10 → digit d = digit e → d = e.
Proof. intros Hd He H. apply (f_equal nat_of_ascii) in H. rewrite !digit_value in H by done. lia. Qed.
Lemma digits_all fuel n : Forall is_digit (digits fuel n).
Proof.
  revert n. induction fuel as [|fuel IH]; intros n; [constructor|]. cbn [digits]. destruct (Nat.ltb_spec n 10).
  - constructor; [by exists n|constructor].
  - apply Forall_app. split; [apply IH|]. constructor; [|constructor]. exists (n mod 10). split; [|done]. apply Nat.mod_upper_bound. lia.
Qed.
Definition value_of (cs : chars) : nat := foldl (λ v c, 10 * v + (nat_of_ascii c - 48)) 0 cs.
Lemma digits_value fuel n : n < fuel → value_of (digits fuel n) = n.
Proof.
  revert n. induction fuel as [|fuel IH]; intros n Hn; [lia|]. cbn [digits]. destruct (Nat.ltb_spec n 10).
  - unfold value_of. cbn [foldl]. rewrite digit_value by done. lia.
  - unfold value_of. rewrite foldl_app. cbn [foldl]. change (foldl _ 0 (digits fuel (n / 10))) with (value_of (digits fuel (n / 10))).
    assert (Hlt : n / 10 < n) by (apply Nat.div_lt; lia). rewrite IH by lia.
    rewrite digit_value by (apply Nat.mod_upper_bound; lia). pose proof (Nat.div_mod n 10 ltac:(lia)). lia.
Qed.
Lemma to_string_inj m n : to_string m = to_string n → m = n.
Proof. intros H. apply (f_equal value_of) in H. unfold to_string in H. rewrite !digits_value in H by lia. done. Qed.
Lemma to_string_digits n : Forall is_digit (to_string n).
Proof. apply digits_all. Qed.
Lemma underscore_no_digit : ¬ is_digit "_"%char.
Proof. intros (d & Hd & H). apply (f_equal nat_of_ascii) in H. rewrite digit_value in H by done. change (nat_of_ascii "_"%char) with 95 in H. lia. Qed.

(* The last underscore of a name ends it in two in one way. *)
Lemma last_underscore (a b s t : chars) : a ++ "_"%char :: s = b ++ "_"%char :: t → "_"%char ∉ s → "_"%char ∉ t → a = b ∧ s = t.
Proof.
  revert b. induction a as [|x a IH]; intros [|y b] H Hs Ht; cbn in H.
  - by injection H as <-.
  - injection H as <- ->. exfalso. apply Hs. apply elem_of_app. right. left.
  - injection H as -> <-. exfalso. apply Ht. apply elem_of_app. right. left.
  - injection H as -> H. destruct (IH b H Hs Ht) as [-> ->]. done.
Qed.
Lemma digits_no_underscore n : "_"%char ∉ to_string n.
Proof. intros H. apply underscore_no_digit. exact (proj1 (Forall_forall _ _) (to_string_digits n) _ H). Qed.
Lemma parallel_file_inj a i b j : parallel_file a i = parallel_file b j → a = b ∧ i = j.
Proof.
  unfold parallel_file. rewrite !app_comm_cons, !app_assoc. intros H%app_inj_2; [|done]. destruct H as [H _].
  apply last_underscore in H as [-> H]; [|apply digits_no_underscore..]. split; [done|]. by apply to_string_inj.
Qed.
Lemma serial_file_inj a b : serial_file a = serial_file b → a = b.
Proof. unfold serial_file. intros H%app_inj_2; [|done]. by destruct H. Qed.
Lemma serial_parallel a b j : serial_file a = parallel_file b j ↔ a = b ++ "_"%char :: to_string j.
Proof.
  unfold serial_file, parallel_file. rewrite !app_comm_cons, !app_assoc. split; [intros H%app_inj_2; [|done]; by destruct H|by intros ->].
Qed.

(* ---- contents ---- *)
Section contents.
  Context {F T : Type}.
  Implicit Types (w : vtk_writer F T) (h : list (vtk_event F)) (es : list (nat * vtk_event F)).
  Definition name_of (f : named_field F) (fieldname : chars) : chars := if decide (fieldname = []) then nf_name f else fieldname.
  Lemma under_name f fieldname a : under f fieldname a ↔ a = name_of f fieldname.
  Proof. unfold under, name_of. case_decide; naive_solver. Qed.

  Lemma add_array_names name (arr : list T) arrays :
    (add_array name arr arrays).*1 = if decide (name ∈ arrays.*1) then arrays.*1 else arrays.*1 ++ [name].
  Proof.
    induction arrays as [|[n a] rest IH]; cbn [add_array].
    - rewrite decide_False by apply not_elem_of_nil. done.
    - rewrite fmap_cons. cbn [fst]. destruct (decide (n = name)) as [->|Hne]; [rewrite decide_True by left; done|]. rewrite fmap_cons, IH. cbn [fst].
      destruct (decide (name ∈ rest.*1)) as [Hin|Hin].
      + rewrite decide_True by (by right). done.
      + rewrite decide_False; [done|]. by intros [?|?]%elem_of_cons.
  Qed.
  Lemma add_array_in name (arr : list T) arrays a x : NoDup arrays.*1 →
    (a, x) ∈ add_array name arr arrays ↔ (a = name ∧ x = arr) ∨ (a ≠ name ∧ (a, x) ∈ arrays).
  Proof.
    induction arrays as [|[n b] rest IH]; cbn [add_array fmap list_fmap fst]; intros Hnd.
    - rewrite elem_of_list_singleton, elem_of_nil. naive_solver.
    - apply NoDup_cons in Hnd as [Hn Hnd]. specialize (IH Hnd). destruct (decide (n = name)) as [->|Hne].
      + rewrite !elem_of_cons. split.
        * intros [[= -> ->]|Hin]; [by left|]. right. split; [|by right]. intros ->. by apply Hn, (elem_of_list_fmap_1 fst rest (name, x)).
        * intros [[-> ->]|[Hne [[= -> ->]|Hin]]]; [by left|done|by right].
      + rewrite !elem_of_cons, IH. naive_solver.
  Qed.

  Lemma last_snoc h f fieldname a g : last_recorded (h ++ [Record_ f fieldname]) a g ↔
    (a = name_of f fieldname ∧ g = f) ∨ (a ≠ name_of f fieldname ∧ last_recorded h a g).
  Proof.
    unfold last_recorded. setoid_rewrite under_name. split.
    - intros (h1 & nm & h2 & E & Hu & Hlast). destruct h2 as [|e h2 _] using rev_ind.
      + apply app_inj_tail in E as [-> [= <- <-]]. by left.
      + rewrite app_comm_cons, app_assoc in E. apply app_inj_tail in E as [-> <-]. right. split.
        * apply Hlast, elem_of_app. right. left.
        * exists h1, nm, h2. split_and!; [done|done|]. intros f' nm' Hin. apply Hlast, elem_of_app. by left.
    - intros [[-> ->]|[Hne (h1 & nm & h2 & -> & Hu & Hlast)]].
      + exists h, fieldname, []. split_and!; [done|done|]. intros ? ? Hin. by apply elem_of_nil in Hin.
      + exists h1, nm, (h2 ++ [Record_ f fieldname]). split_and!; [by rewrite app_comm_cons, app_assoc|done|].
        intros f' nm' [Hin|Hin]%elem_of_app; [by apply (Hlast f' nm')|]. apply elem_of_list_singleton in Hin as [= -> ->]. done.
  Qed.
  Lemma last_write h a g : last_recorded (h ++ [Write_]) a g ↔ last_recorded h a g.
  Proof.
    unfold last_recorded. split.
    - intros (h1 & nm & h2 & E & Hu & Hlast). destruct h2 as [|e h2 _] using rev_ind; [by apply app_inj_tail in E as [_ [=]]|].
      rewrite app_comm_cons, app_assoc in E. apply app_inj_tail in E as [-> <-]. exists h1, nm, h2. split_and!; [done|done|].
      intros f' nm' Hin. apply Hlast, elem_of_app. by left.
    - intros (h1 & nm & h2 & -> & Hu & Hlast). exists h1, nm, (h2 ++ [Write_]). split_and!; [by rewrite app_comm_cons, app_assoc|done|].
      intros f' nm' [Hin|Hin]%elem_of_app; [by apply (Hlast f' nm')|]. by apply elem_of_list_singleton in Hin.
  Qed.
  Lemma last_nil a (g : named_field F) : ¬ last_recorded [] a g.
  Proof. intros (h1 & nm & h2 & E & _). by destruct h1. Qed.

  Lemma calls_snoc i es e : calls i (es ++ [e]) = if decide (e.1 = i) then calls i es ++ [e.2] else calls i es.
  Proof.
    unfold calls. rewrite filter_app, fmap_app. destruct (decide (e.1 = i)) as [Hi|Hi].
    - by rewrite filter_cons_True, filter_nil.
    - by rewrite filter_cons_False, filter_nil, app_nil_r.
  Qed.
  Lemma rfold_snoc {A B} (f : A → B → res A) a l x : rfold f a (l ++ [x]) = rbind (rfold f a l) (λ a, f a x).
  Proof. revert a. induction l as [|y l IH]; intros a; cbn; [destruct (f a x); done|]. destruct (f a y); cbn; [apply IH|done|done]. Qed.

  Definition array_of w (f : named_field F) (arr : list T) : Prop := w_attach w (nf_values f) = Ok arr.
  Definition with_arrays w arrays : vtk_writer F T := VtkWriter (w_file w) (w_grid w) (w_attach w) arrays.

  Lemma run_ok (ws : list (vtk_writer F T)) d es : NoDup (w_file <$> ws) → (∀ i w, ws !! i = Some w → w_arrays w = []) →
    (∀ i e, (i, e) ∈ es → ∃ w, ws !! i = Some w ∧ ∀ f fieldname, e = Record_ f fieldname → ∃ arr, array_of w f arr) →
    ∃ ws' d', vtk_run ws d es = Ok (ws', d') ∧
      (∀ p, p ∉ w_file <$> ws → d' !! p = d !! p) ∧
      ∀ i w, ws !! i = Some w →
        (∃ arrays, ws' !! i = Some (with_arrays w arrays) ∧ holds_fields (array_of w) (calls i es) arrays) ∧
        (Write_ ∉ calls i es → d' !! w_file w = d !! w_file w) ∧
        (∀ h1 h2, calls i es = h1 ++ Write_ :: h2 → Write_ ∉ h2 →
           ∃ arrays, d' !! w_file w = Some (w_grid w, arrays) ∧ holds_fields (array_of w) h1 arrays).
  Proof.
    intros Hnd Hempty. induction es as [|[j e] es IH] using rev_ind; intros Hes.
    - exists ws, d. split_and!; [done|done|]. intros i w Hw. split_and!; [|done|].
      + exists []. split.
        * rewrite Hw. f_equal. pose proof (Hempty i w Hw) as Ha. destruct w; cbn in *. by subst.
        * split; [constructor|]. intros a arr. split; [by intros ?%elem_of_nil|]. intros (f & Hf & _). by apply last_nil in Hf.
      + intros h1 h2 E. by destruct h1.
    - destruct IH as (ws' & d' & Hrun & Hother & Hall). { intros i e' Hin. apply Hes, elem_of_app. by left. }
      destruct (Hes j e) as (wj & Hj & Hrec); [apply elem_of_app; right; left|]. destruct (Hall j wj Hj) as ((arrays & Hj' & Hh) & Hd1 & Hd2).
      unfold vtk_run in *. rewrite rfold_snoc, Hrun. cbn [rbind]. unfold vtk_step. cbn [fst snd]. rewrite Hj'.
      assert (Hlen : j < length ws') by (apply lookup_lt_Some in Hj'; done).
      destruct e as [f fieldname|].
      + destruct (Hrec f fieldname eq_refl) as (arr & Harr). unfold record. cbn [w_attach with_arrays]. unfold array_of in Harr. rewrite Harr. cbn [rbind w_file w_grid w_arrays with_arrays].
        eexists _, _. split; [reflexivity|]. split; [done|]. intros i w Hw. rewrite calls_snoc. cbn [fst snd]. destruct (decide (j = i)) as [->|Hne].
        * rewrite Hw in Hj. injection Hj as ->. split_and!.
          -- exists (add_array (name_of f fieldname) arr arrays). split; [by rewrite list_lookup_insert|]. destruct Hh as [Hn Hin]. split.
             ++ rewrite add_array_names. destruct (decide _) as [|Hni]; [done|]. apply NoDup_app. split_and!; [done| |apply NoDup_singleton].
                intros a Ha ->%elem_of_list_singleton. done.
             ++ intros a x. rewrite add_array_in by done. rewrite Hin. setoid_rewrite last_snoc. unfold array_of. split.
                ** intros [[-> ->]|[Hna (g & Hg & Hx)]]; [exists f; eauto|exists g; eauto].
                ** intros (g & [[-> ->]|[Hna Hg]] & Hx); [left; split; [done|]; congruence|right; eauto].
          -- intros Hnw. apply Hd1. intros Hin. apply Hnw, elem_of_app. by left.
          -- intros h1 h2 E Hnw. destruct h2 as [|e2 h2 _] using rev_ind; [by apply app_inj_tail in E as [_ [=]]|].
             rewrite app_comm_cons, app_assoc in E. apply app_inj_tail in E as [E _]. apply (Hd2 h1 h2 E). intros Hin. apply Hnw, elem_of_app. by left.
        * rewrite list_lookup_insert_ne by done. by apply Hall.
      + eexists _, _. split; [reflexivity|]. unfold write. cbn [w_file w_grid w_arrays with_arrays]. split.
        * intros p Hp. rewrite lookup_insert_ne; [by apply Hother|]. intros <-. apply Hp, (elem_of_list_fmap_1 w_file), elem_of_list_lookup. by exists j.
        * intros i w Hw. rewrite calls_snoc. cbn [fst snd]. destruct (decide (j = i)) as [->|Hne].
          -- rewrite Hw in Hj. injection Hj as ->. split_and!.
             ++ exists arrays. split; [done|]. destruct Hh as [Hn Hin]. split; [done|]. intros a x. rewrite Hin. by setoid_rewrite last_write.
             ++ intros Hnw. exfalso. apply Hnw, elem_of_app. right. left.
             ++ intros h1 h2 E Hnw. destruct h2 as [|e2 h2 _] using rev_ind.
                ** apply app_inj_tail in E as [<- _]. exists arrays. split; [by rewrite lookup_insert|done].
                ** rewrite app_comm_cons, app_assoc in E. apply app_inj_tail in E as [_ <-]. exfalso. apply Hnw, elem_of_app. right. left.
          -- destruct (Hall i w Hw) as (H1 & H2 & H3). rewrite lookup_insert_ne; [done|]. intros Heq. apply Hne.
             apply (NoDup_lookup _ j i (w_file wj) Hnd); rewrite list_lookup_fmap; [by rewrite Hj|by rewrite Hw, Heq].
  Qed.
End contents.
