(* Proofs about function spaces and discrete systems. *)
From stdpp Require Import base gmap list sorting.
From Coq Require Import Reals Lra.
From Verif Require Import Base M_Perm P_Perm M_Topology M_Tensor M_Geometry M_SegAlloc M_Mesh M_Discrete S_Discrete P_VTK M_System S_System.
Open Scope nat_scope.

Section discretizer.
  Context {K : Type} `{Countable K} (fresh : gset nat → nat) (Hfresh : fresh_ok fresh).
  Context (alive : gset nat) (side : list K → list (K * K)).

  Record Good (s : nodes_state K) : Prop := {
    g_alive : alive ⊆ d_alive s;
    g_map : ∀ k n, d_map s !! k = Some n → n ∈ d_alive s ∧ n ∉ alive;
    g_mid : ∀ k n, d_mid s !! k = Some n → n ∈ d_alive s ∧ n ∉ alive;
    g_map_inj : ∀ k k' n, d_map s !! k = Some n → d_map s !! k' = Some n → k = k';
    g_mid_inj : ∀ k k' n, d_mid s !! k = Some n → d_mid s !! k' = Some n → k = k';
    g_apart : ∀ k k' n, d_map s !! k = Some n → d_mid s !! k' = Some n → False;
  }.
  Definition ext (s s' : nodes_state K) : Prop := d_map s ⊆ d_map s' ∧ d_mid s ⊆ d_mid s'.
  Lemma ext_refl s : ext s s. Proof. done. Qed.
  Lemma ext_trans s1 s2 s3 : ext s1 s2 → ext s2 s3 → ext s1 s3.
  Proof. intros [] []. split; etrans; eassumption. Qed.

  Lemma node_insert_ok k s :
    Good s → ∃ s' n, node_insert fresh k s = (s', n) ∧ Good s' ∧ ext s s' ∧ d_map s' !! k = Some n ∧ d_mid s' = d_mid s ∧
      ∀ k', is_Some (d_map s' !! k') ↔ is_Some (d_map s !! k') ∨ k' = k.
  Proof.
    intros HG. unfold node_insert. destruct (d_map s !! k) as [n|] eqn:Ek.
    - exists s, n. split_and!; try done. intros k'. split; [by left|]. intros [?| ->]; [done|by exists n].
    - pose proof (Hfresh (d_alive s)) as Hf. set (n := fresh (d_alive s)) in *.
      eexists _, n. split; [reflexivity|]. split_and!; cbn.
      + destruct HG. split; cbn.
        * set_solver.
        * intros k' n'. rewrite lookup_insert_Some. intros [[-> <-]|[? Hn]]; [set_solver|].
          apply g_map0 in Hn. set_solver.
        * intros k' n' Hn. apply g_mid0 in Hn. set_solver.
        * intros k1 k2 n'. rewrite !lookup_insert_Some. intros [[<- <-]|[? H1]] [[<- E]|[? H2]]; [done| | |by eapply g_map_inj0].
          -- apply g_map0 in H2. set_solver.
          -- subst n'. apply g_map0 in H1. set_solver.
        * done.
        * intros k1 k2 n'. rewrite lookup_insert_Some. intros [[<- <-]|[? H1]] H2; [|by eapply g_apart0].
          apply g_mid0 in H2. set_solver.
      + split; cbn; [by apply insert_subseteq|done].
      + by rewrite lookup_insert.
      + done.
      + intros k'. rewrite lookup_insert_is_Some. destruct (decide (k = k')); naive_solver.
  Qed.

  Lemma ordered_sym a b : ordered_nodes a b = ordered_nodes b a.
  Proof. unfold ordered_nodes. destruct (Nat.ltb_spec a b), (Nat.ltb_spec b a); try done; try lia. by replace a with b by lia. Qed.
  Lemma ordered_inj a b c d : ordered_nodes a b = ordered_nodes c d → (a = c ∧ b = d) ∨ (a = d ∧ b = c).
  Proof. unfold ordered_nodes. destruct (a <? b), (c <? d); intros [= -> ->]; tauto. Qed.

  Lemma mid_insert_ok a b s :
    Good s → ∃ s' n, mid_insert fresh a b s = (s', n) ∧ Good s' ∧ ext s s' ∧ d_map s' = d_map s ∧
      d_mid s' !! ordered_nodes a b = Some n ∧
      ∀ q, is_Some (d_mid s' !! q) ↔ is_Some (d_mid s !! q) ∨ q = ordered_nodes a b.
  Proof.
    intros HG. unfold mid_insert. destruct (d_mid s !! ordered_nodes a b) as [n|] eqn:Ek.
    - exists s, n. split_and!; try done. intros k'. split; [by left|]. intros [?| ->]; [done|by exists n].
    - pose proof (Hfresh (d_alive s)) as Hf. set (n := fresh (d_alive s)) in *.
      eexists _, n. split; [reflexivity|]. split_and!; cbn.
      + destruct HG. split; cbn.
        * set_solver.
        * intros k' n' Hn. apply g_map0 in Hn. set_solver.
        * intros k' n'. rewrite lookup_insert_Some. intros [[<- <-]|[? Hn]]; [set_solver|].
          apply g_mid0 in Hn. set_solver.
        * done.
        * intros k1 k2 n'. rewrite !lookup_insert_Some. intros [[<- <-]|[? H1]] [[<- E]|[? H2]]; [done| | |by eapply g_mid_inj0].
          -- apply g_mid0 in H2. set_solver.
          -- subst n'. apply g_mid0 in H1. set_solver.
        * intros k1 k2 n' H1. rewrite lookup_insert_Some. intros [[<- <-]|[? H2]]; [|by eapply g_apart0].
          apply g_map0 in H1. set_solver.
      + split; cbn; [done|by apply insert_subseteq].
      + done.
      + by rewrite lookup_insert.
      + intros k'. rewrite lookup_insert_is_Some. destruct (decide (ordered_nodes a b = k')); naive_solver.
  Qed.

  (* what holds once the cells [l] have been discretized *)
  Record Inv (l : list (list K)) (s : nodes_state K) : Prop := {
    i_good : Good s;
    i_map : ∀ k, is_Some (d_map s !! k) ↔ k ∈ concat l;
    i_mid : ∀ q, is_Some (d_mid s !! q) ↔ ∃ a b na nb, (a, b) ∈ concat (side <$> l) ∧
      d_map s !! a = Some na ∧ d_map s !! b = Some nb ∧ q = ordered_nodes na nb;
  }.

  Lemma Inv_init : Inv [] (NodesState alive ∅ ∅).
  Proof.
    split; [split|..]; cbn; try done; try (intros; by rewrite lookup_empty in *).
    - intros k. rewrite lookup_empty. split; [by intros []|]. by intros ?%elem_of_nil.
    - intros q. rewrite lookup_empty. split; [by intros []|]. by intros (? & ? & ? & ? & ?%elem_of_nil & _).
  Qed.

  Lemma elements_of_ok (element : list K → nodes_state K → res (nodes_state K * list nat))
      (fits : nodes_state K → list K → list nat → Prop) (cells : list (list K)) :
    (∀ s s' nodes conn, ext s s' → fits s nodes conn → fits s' nodes conn) →
    (∀ l s nodes, nodes ∈ cells → Inv l s →
       ∃ s' conn, element nodes s = Ok (s', conn) ∧ Inv (l ++ [nodes]) s' ∧ ext s s' ∧ fits s' nodes conn) →
    ∃ s es, elements_of element cells (NodesState alive ∅ ∅) = Ok (s, es) ∧ Inv cells s ∧
      Forall2 (λ nodes e, e.1 = nodes ∧ fits s nodes e.2) cells es.
  Proof.
    intros Hmono. unfold elements_of. induction cells as [|nodes cells IH] using rev_ind; intros Hel.
    { exists (NodesState alive ∅ ∅), []. split_and!; [done|apply Inv_init|constructor]. }
    destruct IH as (s & es & E & HI & HF).
    { intros l s nodes' Hin. apply Hel. apply elem_of_app. by left. }
    destruct (Hel cells s nodes) as (s' & conn & E' & HI' & Hext & Hfit); [apply elem_of_app; right; left|done|].
    exists s', (es ++ [(nodes, conn)]). rewrite rfold_snoc, E. cbn [rbind]. rewrite E'. cbn [rbind].
    split_and!; [done|done|]. apply Forall2_app; [|repeat constructor; done].
    eapply Forall2_impl; [exact HF|]. cbn. intros ? ? []. split; [done|]. by eapply Hmono.
  Qed.

  (* first order: [side] is empty *)
  Definition fits_P1 (s : nodes_state K) (nodes : list K) (conn : list nat) : Prop :=
    Forall2 (λ k n, d_map s !! k = Some n) nodes conn.
  Lemma fits_P1_ext s s' nodes conn : ext s s' → fits_P1 s nodes conn → fits_P1 s' nodes conn.
  Proof. intros [Hm _] HF. apply (Forall2_impl _ _ _ _ HF). intros k n Hk. by eapply lookup_weaken. Qed.

  Lemma element_P1_ok n nodes s :
    length nodes = n → Good s →
    ∃ s' conn, element_P1 fresh n nodes s = Ok (s', conn) ∧ Good s' ∧ ext s s' ∧ fits_P1 s' nodes conn ∧
      d_mid s' = d_mid s ∧ ∀ k, is_Some (d_map s' !! k) ↔ is_Some (d_map s !! k) ∨ k ∈ nodes.
  Proof.
    intros <- HG. unfold element_P1.
    assert (Hgen : ∀ post pre s, nodes = pre ++ post → Good s → ∀ c0, fits_P1 s pre c0 →
      ∃ s' conn, rfold (λ '(s, conn) i, let! k := deref (nodes !! i) in
        let '(s, node) := node_insert fresh k s in Ok (s, conn ++ [node])) (s, c0) (seq (length pre) (length post)) = Ok (s', conn) ∧
        Good s' ∧ ext s s' ∧ fits_P1 s' nodes conn ∧
        d_mid s' = d_mid s ∧ ∀ k, is_Some (d_map s' !! k) ↔ is_Some (d_map s !! k) ∨ k ∈ post).
    { clear s HG. induction post as [|k post IH]; intros pre s E HG c0 Hc.
      - exists s, c0. rewrite app_nil_r in E. subst pre. split_and!; try done. intros k. split; [by left|].
        intros [?|Hn]; [done|by apply elem_of_nil in Hn].
      - cbn [length seq rfold]. rewrite E, lookup_app_r, Nat.sub_diag by lia. cbn [lookup list_lookup deref rbind]. rewrite <- E.
        destruct (node_insert_ok k s HG) as (s1 & m & -> & HG1 & Hx1 & Hk & Hmid1 & Hd1). cbn [rbind].
        destruct (IH (pre ++ [k]) s1) with (c0 := c0 ++ [m]) as (s' & conn & E' & HG' & Hx' & Hf & Hmid & Hd).
        { by rewrite <- app_assoc. } { done. }
        { apply Forall2_app; [by eapply fits_P1_ext|]. by repeat constructor. }
        exists s', conn. rewrite app_length in E'. cbn in E'. rewrite Nat.add_1_r in E'.
        split_and!; [exact E'|done|by eapply ext_trans|done|congruence|].
        intros k'. rewrite Hd, Hd1, elem_of_cons. tauto. }
    destruct (Hgen nodes [] s eq_refl HG [] (List.Forall2_nil _)) as (s' & conn & E & H'). exists s', conn. by split.
  Qed.
End discretizer.

Section final.
  Context {K : Type} `{Countable K} (fresh : gset nat → nat) (Hfresh : fresh_ok fresh) (alive : gset nat).

  Lemma elements_P1_ok n (cells : list (list K)) :
    Forall (λ c, length c = n) cells →
    ∃ s es, elements_of (element_P1 fresh n) cells (NodesState alive ∅ ∅) = Ok (s, es) ∧
      Inv alive (λ _, []) cells s ∧
      Forall2 (λ nodes e, e.1 = nodes ∧ fits_P1 s nodes e.2) cells es.
  Proof.
    intros Hl. apply elements_of_ok; [apply fits_P1_ext|]. intros l s nodes Hin HI.
    rewrite Forall_forall in Hl. destruct HI as [HG Hm Hd].
    destruct (element_P1_ok fresh Hfresh alive (λ _, []) n nodes s) as (s' & conn & E & HG' & Hx & Hf & Hmid & Hdom); [by apply Hl|done|].
    exists s', conn. split_and!; try done. split; [done| |].
    - intros k. rewrite Hdom, Hm, concat_app, elem_of_app. cbn. by rewrite app_nil_r.
    - intros q. rewrite Hmid, Hd. clear. rewrite fmap_app, concat_app. cbn. rewrite app_nil_r.
      assert (Hn : concat ((λ _ : list K, @nil (K * K)) <$> l) = []) by (induction l; done).
      rewrite Hn. split; intros (? & ? & ? & ? & Hi & _); by apply elem_of_nil in Hi.
  Qed.

  (* second order *)
  Definition fits_P2 (s : nodes_state K) (nodes : list K) (conn : list nat) : Prop :=
    ∃ a b c na nb nc m0 m1 m2, nodes = [a; b; c] ∧ conn = [na; nb; nc; m0; m1; m2] ∧
      d_map s !! a = Some na ∧ d_map s !! b = Some nb ∧ d_map s !! c = Some nc ∧
      d_mid s !! ordered_nodes na nb = Some m0 ∧ d_mid s !! ordered_nodes nb nc = Some m1 ∧
      d_mid s !! ordered_nodes nc na = Some m2.
  Lemma fits_P2_ext s s' nodes conn : ext s s' → fits_P2 s nodes conn → fits_P2 s' nodes conn.
  Proof.
    intros [Hm Hd] (a & b & c & na & nb & nc & m0 & m1 & m2 & -> & -> & ? & ? & ? & ? & ? & ?).
    exists a, b, c, na, nb, nc, m0, m1, m2. split_and!; try done; by eapply lookup_weaken.
  Qed.

  Lemma elements_P2_ok (cells : list (list K)) :
    Forall (λ c, length c = 3) cells →
    ∃ s es, elements_of (element_P2 fresh) cells (NodesState alive ∅ ∅) = Ok (s, es) ∧
      Inv alive sides cells s ∧
      Forall2 (λ nodes e, e.1 = nodes ∧ fits_P2 s nodes e.2) cells es.
  Proof.
    intros Hl. apply elements_of_ok; [apply fits_P2_ext|]. intros l s nodes Hin HI.
    rewrite Forall_forall in Hl. specialize (Hl nodes Hin).
    destruct nodes as [|a [|b [|c [|]]]]; try discriminate. clear Hin Hl. destruct HI as [HG Hm Hd].
    unfold element_P2. cbn [lookup list_lookup deref rbind].
    destruct (node_insert_ok fresh Hfresh alive a s HG) as (s1 & na & -> & HG1 & Hx1 & Ha & Hmid1 & Hd1).
    destruct (node_insert_ok fresh Hfresh alive b s1 HG1) as (s2 & nb & -> & HG2 & Hx2 & Hb & Hmid2 & Hd2).
    destruct (node_insert_ok fresh Hfresh alive c s2 HG2) as (s3 & nc & -> & HG3 & Hx3 & Hc & Hmid3 & Hd3).
    destruct (mid_insert_ok fresh Hfresh alive na nb s3 HG3) as (s4 & m0 & -> & HG4 & Hx4 & Hmap4 & H0 & Hd4).
    destruct (mid_insert_ok fresh Hfresh alive nb nc s4 HG4) as (s5 & m1 & -> & HG5 & Hx5 & Hmap5 & H1 & Hd5).
    destruct (mid_insert_ok fresh Hfresh alive nc na s5 HG5) as (s6 & m2 & -> & HG6 & Hx6 & Hmap6 & H2 & Hd6).
    assert (Hx13 : ext s1 s3) by (eapply ext_trans; done). assert (Hx03 : ext s s3) by (eapply ext_trans; done).
    assert (Hx36 : ext s3 s6) by (eapply ext_trans; [done|]; eapply ext_trans; done).
    assert (Hx46 : ext s4 s6) by (eapply ext_trans; done).
    assert (Hx06 : ext s s6) by (eapply ext_trans; done).
    assert (Hmap : d_map s6 = d_map s3) by congruence.
    assert (Ha6 : d_map s6 !! a = Some na) by (rewrite Hmap; eapply lookup_weaken; [exact Ha|apply Hx13]).
    assert (Hb6 : d_map s6 !! b = Some nb) by (rewrite Hmap; eapply lookup_weaken; [exact Hb|apply Hx3]).
    assert (Hc6 : d_map s6 !! c = Some nc) by (rewrite Hmap; exact Hc).
    eexists s6, _. split_and!; [reflexivity| |done|].
    - split; [done| |].
      + intros k. rewrite Hmap, Hd3, Hd2, Hd1, Hm, concat_app, elem_of_app. cbn. rewrite !elem_of_cons, elem_of_nil. tauto.
      + intros q. rewrite Hd6, Hd5, Hd4. rewrite Hmid3, Hmid2, Hmid1, Hd. rewrite fmap_app, concat_app. cbn.
        setoid_rewrite elem_of_app. setoid_rewrite elem_of_cons. setoid_rewrite elem_of_cons. setoid_rewrite elem_of_cons. split.
        * intros [[[(x & y & nx & ny & Hin & Hx & Hy & ->)| ->]| ->]| ->].
          -- exists x, y, nx, ny. split; [by left|]. split_and!; [..|done]; eapply lookup_weaken; try eassumption; apply Hx06.
          -- exists a, b, na, nb. split; [right; by left|done].
          -- exists b, c, nb, nc. split; [right; right; by left|done].
          -- exists c, a, nc, na. split; [right; right; right; by left|done].
        * intros (x & y & nx & ny & Hin & Hx & Hy & ->).
          destruct Hin as [Hin|Hin].
          -- left; left; left. exists x, y, nx, ny.
             assert (Hxy : is_Some (d_map s !! x) ∧ is_Some (d_map s !! y)).
             { rewrite !Hm. clear -Hin. induction l as [|z l IH]; cbn in *; [by apply elem_of_nil in Hin|].
               rewrite !elem_of_app. apply elem_of_app in Hin as [Hin|Hin]; [|destruct (IH Hin); tauto].
               split; left; destruct z as [|? [|? [|? [|]]]]; cbn in Hin; try (by apply elem_of_nil in Hin);
               rewrite !elem_of_cons, elem_of_nil; rewrite !elem_of_cons, elem_of_nil in Hin; naive_solver. }
             destruct Hxy as [[nx' Hx'] [ny' Hy']].
             assert (nx' = nx) as ->. { eapply lookup_weaken in Hx'; [|apply Hx06]. congruence. }
             assert (ny' = ny) as ->. { eapply lookup_weaken in Hy'; [|apply Hx06]. congruence. }
             done.
          -- destruct Hin as [[= -> ->]|[[= -> ->]|[[= -> ->]|Hin]]]; [| | |by apply elem_of_nil in Hin].
             ++ left; left; right. congruence.
             ++ left; right. congruence.
             ++ right. congruence.
    - exists a, b, c, na, nb, nc, m0, m1, m2. split_and!; try done; [..].
      + eapply lookup_weaken; [exact H0|apply Hx46]. + eapply lookup_weaken; [exact H1|apply Hx6].
  Qed.

  (* the nodes of the constraints *)
  Lemma constrain_nodes_ok (m : gmap K nat) (φ : K → nat) nodes c0 :
    (∀ k, k ∈ nodes → m !! k = Some (φ k)) →
    ∃ c, constrain_nodes m nodes c0 = Ok c ∧ ∀ n, n ∈ c ↔ n ∈ c0 ∨ ∃ k, k ∈ nodes ∧ n = φ k.
  Proof.
    revert c0. induction nodes as [|k nodes IH]; intros c0 Hk.
    - exists c0. split; [done|]. intros n. split; [by left|]. intros [?|(? & Hn & _)]; [done|by apply elem_of_nil in Hn].
    - unfold constrain_nodes in *. cbn [rfold]. rewrite (Hk k) by left. cbn [deref rbind].
      destruct (IH ({[φ k]} ∪ c0)) as (c & E & Hc); [intros k' ?; apply Hk; by right|].
      exists c. split; [done|]. intros n. rewrite Hc, elem_of_union, elem_of_singleton.
      setoid_rewrite elem_of_cons. naive_solver.
  Qed.
  Lemma constrain_nodes_ub (m : gmap K nat) nodes c0 k :
    k ∈ nodes → m !! k = None → constrain_nodes m nodes c0 = Ub.
  Proof.
    revert c0. induction nodes as [|k' nodes IH]; intros c0 Hin Hk; [by apply elem_of_nil in Hin|].
    unfold constrain_nodes in *. cbn [rfold]. destruct (m !! k') as [n|] eqn:Ek'; [|done]. cbn [deref rbind].
    apply elem_of_cons in Hin as [->|Hin]; [congruence|]. by apply IH.
  Qed.
End final.

(* ---- the equations ---- *)

Lemma sort_insert_perm x l : sort_insert Nat.leb x l ≡ₚ x :: l.
Proof.
  induction l as [|y l IH]; cbn; [done|]. destruct (x <=? y); [done|]. rewrite IH. apply Permutation_swap.
Qed.
Lemma sort_perm l : sort Nat.leb l ≡ₚ l.
Proof. induction l as [|x l IH]; cbn; [done|]. by rewrite sort_insert_perm, IH. Qed.
Lemma in_order_perm s : in_order s ≡ₚ elements s.
Proof. apply sort_perm. Qed.

Section system.
  Context {C : Type}.

  Lemma get_discretization_nodes_ok (es : list (C * list nat)) s p :
    p ∈ get_discretization_nodes es s ↔ p ∈ s ∨ node_of es p.
  Proof.
    unfold get_discretization_nodes, node_of. revert s. induction es as [|e es IH]; intros s; cbn [foldl].
    - split; [by left|]. intros [?|(x & Hx & _)]; [done|by apply elem_of_nil in Hx].
    - rewrite IH.
      assert (Hx : p ∈ foldl (λ (nodes : gset nat) n, {[n]} ∪ nodes) s e.2 ↔ p ∈ s ∨ p ∈ e.2).
      { clear. revert s. induction e.2 as [|n' ns IH]; intros s; cbn.
        - split; [by left|]. intros [?|Hn]; [done|by apply elem_of_nil in Hn].
        - rewrite IH, elem_of_union, elem_of_singleton, elem_of_cons. tauto. }
      rewrite Hx. setoid_rewrite elem_of_cons. naive_solver.
  Qed.

  Lemma number_constrained_ok m l n :
    number_constrained m l !! n = match m !! n with Some z => Some z | None => if bool_decide (n ∈ l) then Some (-1)%Z else None end.
  Proof.
    unfold number_constrained. revert m. induction l as [|k l IH]; intros m; cbn [foldl].
    - rewrite bool_decide_false by apply not_elem_of_nil. by destruct (m !! n).
    - rewrite IH. destruct (m !! k) as [z|] eqn:Ek.
      + destruct (m !! n) eqn:En; [done|]. destruct (decide (n = k)) as [->|Hne]; [congruence|].
        repeat case_bool_decide; try done; rewrite elem_of_cons in *; tauto.
      + destruct (decide (n = k)) as [->|Hne].
        * rewrite lookup_insert, Ek, bool_decide_true by left. done.
        * rewrite lookup_insert_ne by done. destruct (m !! n) eqn:En; [done|].
          repeat case_bool_decide; try done; rewrite elem_of_cons in *; tauto.
  Qed.

  Lemma number_interior_ok m l :
    NoDup l → (∀ k, k ∈ l → m !! k = None) →
    ∃ m', number_interior m l = (m', Z.of_nat (length l)) ∧
      (∀ n, n ∉ l → m' !! n = m !! n) ∧
      ∀ n z, n ∈ l → m' !! n = Some z ↔ ∃ i, z = Z.of_nat i ∧ l !! i = Some n.
  Proof.
    unfold number_interior. induction l as [|k l IH] using rev_ind; intros Hnd Hm.
    { exists m. split_and!; [done|done|]. intros n z Hn. by apply elem_of_nil in Hn. }
    apply NoDup_app in Hnd as (Hnd & Hk & _). assert (Hkl : k ∉ l) by (intros ?; eapply Hk; [done|left]).
    destruct IH as (m' & E & H1 & H2); [done|intros; apply Hm, elem_of_app; by left|].
    rewrite foldl_app, E. cbn [foldl]. rewrite H1, Hm by (done || (apply elem_of_app; right; left)).
    eexists. split_and!; [f_equal; rewrite app_length; cbn; lia| |].
    - intros n. rewrite elem_of_app, elem_of_list_singleton. intros Hn. rewrite lookup_insert_ne by naive_solver. apply H1. tauto.
    - intros n z Hn. destruct (decide (n = k)) as [->|Hne].
      + rewrite lookup_insert. split.
        * intros [= <-]. exists (length l). by rewrite lookup_app_r, Nat.sub_diag by lia.
        * intros (i & -> & Hi). f_equal. f_equal. apply lookup_app_Some in Hi as [Hi|[Hi Hi']].
          -- by apply elem_of_list_lookup_2 in Hi.
          -- apply list_lookup_singleton_Some in Hi' as [? _]. lia.
      + rewrite lookup_insert_ne by done. apply elem_of_app in Hn as [Hn|Hn%elem_of_list_singleton]; [|done].
        rewrite H2 by done. split; intros (i & -> & Hi); exists i; (split; [done|]).
        * by apply lookup_app_l_Some.
        * apply lookup_app_Some in Hi as [Hi|[Hi Hi']]; [done|]. apply list_lookup_singleton_Some in Hi' as [_ ->]. done.
  Qed.

  (* what the equation map is *)
  Lemma build_equation_map_ok (es : list (C * list nat)) constrained :
    ∃ eqs l, build_equation_map es constrained = (eqs, Z.of_nat (length l)) ∧ NoDup l ∧
      (∀ p, p ∈ l ↔ node_of es p ∧ p ∉ constrained) ∧
      (∀ p z, p ∈ l → eqs !! p = Some z ↔ ∃ i, z = Z.of_nat i ∧ l !! i = Some p) ∧
      (∀ p, p ∈ constrained → eqs !! p = Some (-1)%Z) ∧
      (∀ p, p ∉ constrained → ¬ node_of es p → eqs !! p = None).
  Proof.
    unfold build_equation_map. set (nodes := get_discretization_nodes es ∅).
    set (l := in_order (nodes ∖ constrained)).
    assert (Hl : ∀ p, p ∈ l ↔ node_of es p ∧ p ∉ constrained).
    { intros p. unfold l. rewrite in_order_perm, elem_of_elements, elem_of_difference. unfold nodes.
      rewrite get_discretization_nodes_ok. set_solver. }
    assert (Hc : ∀ p, number_constrained ∅ (in_order constrained) !! p = if bool_decide (p ∈ constrained) then Some (-1)%Z else None).
    { intros p. rewrite number_constrained_ok, lookup_empty.
      apply (f_equal (λ b : bool, if b then Some (-1)%Z else None)), bool_decide_ext. by rewrite in_order_perm, elem_of_elements. }
    assert (Hnd : NoDup l) by (unfold l; rewrite in_order_perm; apply NoDup_elements).
    destruct (number_interior_ok (number_constrained ∅ (in_order constrained)) l) as (eqs & E & H1 & H2); [done| |].
    { intros k Hk. rewrite Hc, bool_decide_false; [done|]. by apply Hl. }
    exists eqs, l. split_and!; try done.
    - intros p Hp. rewrite H1 by (rewrite Hl; tauto). by rewrite Hc, bool_decide_true.
    - intros p Hp Hn. rewrite H1 by (rewrite Hl; tauto). by rewrite Hc, bool_decide_false.
  Qed.

  (* ---- assembly ---- *)

  Lemma sumR_cons x l : sumR (x :: l) = (x + sumR l)%R.
  Proof. done. Qed.
  Lemma sumR_app l l' : sumR (l ++ l') = (sumR l + sumR l')%R.
  Proof. induction l as [|x l IH]; [change (sumR l' = 0 + sumR l')%R; lra|]. change ((x :: l) ++ l') with (x :: (l ++ l')). rewrite !sumR_cons, IH. lra. Qed.
  Lemma sumR_perm l l' : l ≡ₚ l' → sumR l = sumR l'.
  Proof. induction 1; rewrite ?sumR_cons; lra. Qed.
  Lemma sumR_ext {A} (f g : A → R) l : (∀ x, x ∈ l → f x = g x) → sumR (f <$> l) = sumR (g <$> l).
  Proof.
    induction l as [|x l IH]; intros Hfg; [done|]. rewrite !fmap_cons, !sumR_cons, Hfg by left. f_equal. apply IH. intros y Hy. apply Hfg. by right.
  Qed.
  Lemma sumR_zero {A} (f : A → R) l : (∀ x, x ∈ l → f x = 0%R) → sumR (f <$> l) = 0%R.
  Proof.
    induction l as [|x l IH]; intros Hf; [done|]. rewrite fmap_cons, sumR_cons, Hf by left. rewrite IH; [lra|]. intros y Hy. apply Hf. by right.
  Qed.
  Lemma sumR_plus {A} (f g : A → R) l : sumR ((λ x, f x + g x)%R <$> l) = (sumR (f <$> l) + sumR (g <$> l))%R.
  Proof. induction l as [|x l IH]; [cbn; lra|]. rewrite !fmap_cons, !sumR_cons, IH. lra. Qed.
  Lemma sumR_mult_l {A} (f : A → R) c l : sumR ((λ x, c * f x)%R <$> l) = (c * sumR (f <$> l))%R.
  Proof. induction l as [|x l IH]; [cbn; lra|]. rewrite !fmap_cons, !sumR_cons, IH. lra. Qed.
  Lemma sumR_swap {A B} (f : A → B → R) l l' :
    sumR ((λ x, sumR (f x <$> l')) <$> l) = sumR ((λ y, sumR ((λ x, f x y) <$> l)) <$> l').
  Proof.
    induction l as [|x l IH].
    - symmetry. by apply sumR_zero.
    - rewrite fmap_cons, sumR_cons, IH. by rewrite <- sumR_plus.
  Qed.

  Definition adds (s s' : linear_system) (dm : Z → Z → R) (dv : Z → R) : Prop :=
    s_equations s' = s_equations s ∧
    (∀ i j, s_matrix s' i j = (s_matrix s i j + dm i j)%R) ∧ ∀ i, s_rhs s' i = (s_rhs s i + dv i)%R.

  Lemma rfold_adds {A} (step : linear_system → A → res linear_system) dm dv N l s :
    s_equations s = N →
    (∀ x s, x ∈ l → s_equations s = N → ∃ s', step s x = Ok s' ∧ adds s s' (dm x) (dv x)) →
    ∃ s', rfold step s l = Ok s' ∧
      adds s s' (λ i j, sumR ((λ x, dm x i j) <$> l)) (λ i, sumR ((λ x, dv x i) <$> l)).
  Proof.
    revert s. induction l as [|x l IH]; intros s HN Hstep.
    - exists s. split; [done|]. split_and!; [done|..]; intros; cbn; lra.
    - destruct (Hstep x s) as (s1 & E1 & HN1 & Hm1 & Hv1); [left|done|].
      destruct (IH s1) as (s2 & E2 & HN2 & Hm2 & Hv2); [congruence|intros; apply Hstep; [by right|done]|].
      exists s2. cbn [rfold]. rewrite E1. cbn [rbind]. split; [done|].
      split_and!; [congruence|..].
      + intros i j. rewrite Hm2, Hm1, fmap_cons, sumR_cons. lra.
      + intros i. rewrite Hv2, Hv1, fmap_cons, sumR_cons. lra.
  Qed.

  Context (debug : bool) (n : nat) (eqs : gmap nat Z) (N : Z) (blocks : C * list nat → (nat → nat → R) * (nat → R)).

  Definition eq_of (conn : list nat) (a : nat) : Z :=
    match conn !! a with Some p => match eqs !! p with Some z => z | None => (-1)%Z end | None => (-1)%Z end.

  Lemma assemble_element_ok e s :
    s_equations s = N → length e.2 = n →
    (∀ p, p ∈ e.2 → ∃ z, eqs !! p = Some z ∧ (-1 <= z < N)%Z) →
    ∃ s', assemble_element debug n eqs blocks e s = Ok s' ∧
      adds s s'
        (λ i j, sumR ((λ a, sumR ((λ b,
           if decide (eq_of e.2 a = i ∧ eq_of e.2 b = j ∧ i ≠ -1 ∧ j ≠ -1)%Z then (blocks e).1 a b else 0%R) <$> seq 0 n)) <$> seq 0 n))
        (λ i, sumR ((λ a, if decide (eq_of e.2 a = i ∧ i ≠ -1)%Z then (blocks e).2 a else 0%R) <$> seq 0 n)).
  Proof.
    intros HN Hlen Heq. unfold assemble_element. destruct (blocks e) as [M V]. cbn [fst snd].
    apply (rfold_adds _ (λ a i j, sumR ((λ b,
           if decide (eq_of e.2 a = i ∧ eq_of e.2 b = j ∧ i ≠ -1 ∧ j ≠ -1)%Z then M a b else 0%R) <$> seq 0 n))
      (λ a i, if decide (eq_of e.2 a = i ∧ i ≠ -1)%Z then V a else 0%R) N); [done|].
    clear s HN. intros a s Ha HN. apply elem_of_seq in Ha.
    destruct (lookup_lt_is_Some_2 e.2 a) as [p Hp]; [lia|].
    destruct (Heq p) as (z & Hz & Hzr); [by eapply elem_of_list_lookup_2|].
    assert (Hea : eq_of e.2 a = z) by (unfold eq_of; by rewrite Hp, Hz).
    rewrite Hp. cbn [deref rbind]. rewrite Hz. cbn [at_or_throw rbind].
    rewrite assert_true by (apply bool_decide_eq_true; lia). cbn [rbind]. rewrite Hea.
    destruct (decide (z = -1)%Z) as [->|Hz1].
    { exists s. split; [done|]. split_and!; [done|..].
      - intros i j. rewrite sumR_zero; [lra|]. intros b _. rewrite decide_False; [done|]. lia.
      - intros i. rewrite decide_False by lia. lra. }
    set (s1 := add_rhs_value z (V a) s).
    assert (Hr : ∀ s z, s_equations s = N → (-1 <= z < N)%Z → z ≠ (-1)%Z → in_range s z = true).
    { intros s' z' HN' ? ?. unfold in_range. rewrite HN'. apply bool_decide_eq_true. lia. }
    assert (Hs1 : adds s s1 (λ _ _, 0%R) (λ i, if decide (z = i ∧ i ≠ -1)%Z then V a else 0%R)).
    { unfold s1, add_rhs_value. rewrite Hr by done. split_and!; [done|..]; cbn; intros i.
      - intros j. lra.
      - destruct (decide (i = z)) as [->|Hne]; [rewrite decide_True by done|rewrite decide_False by naive_solver]; lra. }
    destruct (rfold_adds (λ s b,
          let! node_b := deref (e.2 !! b) in
          let! eq_b := at_or_throw (eqs !! node_b) in
          let! _ := assert_ debug (bool_decide (eq_b < s_equations s)%Z) in
          if decide (eq_b = -1)%Z then Ok s
          else Ok (add_matrix_value z eq_b (M a b) s))
      (λ b i j, if decide (z = i ∧ eq_of e.2 b = j ∧ i ≠ -1 ∧ j ≠ -1)%Z then M a b else 0%R) (λ _ _, 0%R) N (seq 0 n) s1)
      as (s2 & E2 & HN2 & Hm2 & Hv2).
    { destruct Hs1 as (-> & _). done. }
    { clear s s1 HN Hs1. intros b s Hb HN. apply elem_of_seq in Hb.
      destruct (lookup_lt_is_Some_2 e.2 b) as [q Hq]; [lia|].
      destruct (Heq q) as (y & Hy & Hyr); [by eapply elem_of_list_lookup_2|].
      assert (Heb : eq_of e.2 b = y) by (unfold eq_of; by rewrite Hq, Hy).
      rewrite Hq. cbn [deref rbind]. rewrite Hy. cbn [at_or_throw rbind].
      rewrite assert_true by (apply bool_decide_eq_true; lia). cbn [rbind]. rewrite Heb.
      destruct (decide (y = -1)%Z) as [->|Hy1].
      { exists s. split; [done|]. split_and!; [done|..]; intros.
        - rewrite decide_False by lia. lra.
        - lra. }
      eexists. split; [reflexivity|]. unfold add_matrix_value. rewrite !Hr by done. cbn [andb].
      split_and!; [done|..]; cbn; [|intros; lra]. intros i j.
      destruct (decide (i = z ∧ j = y)) as [[-> ->]|Hne]; [rewrite decide_True by done|rewrite decide_False by naive_solver]; lra. }
    exists s2. split; [exact E2|]. destruct Hs1 as (HN1 & Hm1 & Hv1). split_and!; [congruence|..].
    - intros i j. rewrite Hm2, Hm1. lra.
    - intros i. rewrite Hv2, Hv1. rewrite (sumR_zero (λ _, 0%R)) by done. lra.
  Qed.

  Lemma assemble_ok es s :
    s_equations s = N → (∀ e, e ∈ es → length e.2 = n) →
    (∀ p, node_of es p → ∃ z, eqs !! p = Some z ∧ (-1 <= z < N)%Z) →
    ∃ s', assemble debug n eqs N blocks es s = Ok s' ∧
      adds s s'
        (λ i j, sumR ((λ e, sumR ((λ a, sumR ((λ b,
           if decide (eq_of e.2 a = i ∧ eq_of e.2 b = j ∧ i ≠ -1 ∧ j ≠ -1)%Z then (blocks e).1 a b else 0%R) <$> seq 0 n)) <$> seq 0 n)) <$> es))
        (λ i, sumR ((λ e, sumR ((λ a, if decide (eq_of e.2 a = i ∧ i ≠ -1)%Z then (blocks e).2 a else 0%R) <$> seq 0 n)) <$> es)).
  Proof.
    intros HN Hlen Heq. unfold assemble. rewrite assert_true by (by apply bool_decide_eq_true). cbn [rbind].
    apply (rfold_adds (λ s e, assemble_element debug n eqs blocks e s) (λ e i j, sumR ((λ a, sumR ((λ b,
           if decide (eq_of e.2 a = i ∧ eq_of e.2 b = j ∧ i ≠ -1 ∧ j ≠ -1)%Z then (blocks e).1 a b else 0%R) <$> seq 0 n)) <$> seq 0 n))
      (λ e i, sumR ((λ a, if decide (eq_of e.2 a = i ∧ i ≠ -1)%Z then (blocks e).2 a else 0%R) <$> seq 0 n)) N); [done|].
    intros e s0 He HN0. apply assemble_element_ok; [done|by apply Hlen|]. intros p Hp. apply Heq. by exists e.
  Qed.
End system.

(* reading the solution *)
Lemma read_solution_ok (visit : gmap nat Z → list (nat * Z)) eqs u field :
  visits visit →
  (∀ p z, eqs !! p = Some z → z ≠ (-1)%Z → (0 <= z < Z.of_nat (length u))%Z ∧ is_Some (field !! p)) →
  ∃ field', read_solution visit eqs u field = Ok field' ∧
    (∀ p i, eqs !! p = Some (Z.of_nat i) → field' !! p = u !! i) ∧
    (∀ p, eqs !! p = None ∨ eqs !! p = Some (-1)%Z → field' !! p = field !! p).
Proof.
  intros Hv Hf. unfold read_solution.
  assert (Hin : ∀ p z, (p, z) ∈ visit eqs ↔ eqs !! p = Some z) by (intros; by rewrite (Hv eqs), elem_of_map_to_list).
  assert (Hnd : NoDup (visit eqs).*1) by (rewrite (Hv eqs); apply NoDup_fst_map_to_list).
  assert (Hg : ∀ es (g : gmap nat R), NoDup es.*1 →
    (∀ p z, (p, z) ∈ es → z ≠ (-1)%Z → (0 <= z < Z.of_nat (length u))%Z ∧ is_Some (g !! p)) →
    ∃ g', rfold (λ field '(node, eq), if decide (eq = -1)%Z then Ok field
      else let! x := (if decide (0 <= eq)%Z then deref (u !! Z.to_nat eq) else Ub) in assign node x field) g es = Ok g' ∧
      (∀ p i, (p, Z.of_nat i) ∈ es → g' !! p = u !! i) ∧
      (∀ p, (∀ z, (p, z) ∈ es → z = (-1)%Z) → g' !! p = g !! p)).
  { clear. induction es as [|[p z] es IH]; intros g Hnd Hes.
    - exists g. split_and!; [done| |done]. intros p i Hn. by apply elem_of_nil in Hn.
    - cbn [fmap list_fmap] in Hnd. apply NoDup_cons in Hnd as [Hp Hnd]. cbn [rfold]. cbn [fst] in Hp.
      assert (Hp' : ∀ z', (p, z') ∉ es). { intros z' Hz'. apply Hp. exact (elem_of_list_fmap_1 fst es (p, z') Hz'). }
      destruct (decide (z = -1)%Z) as [->|Hz].
      { cbn [rbind]. destruct (IH g) as (g' & E & H1 & H2); [done|intros; apply Hes; [by right|done]|].
        exists g'. split_and!; [done| |].
        - intros p' i [[= -> Hi]|Hin]%elem_of_cons; [lia|by apply H1].
        - intros p' Hp''. apply H2. intros z Hz. apply Hp''. by right. }
      destruct (Hes p z) as [Hz0 [y Hy]]; [left|done|]. rewrite decide_True by lia.
      destruct (lookup_lt_is_Some_2 u (Z.to_nat z)) as [x Hx]; [lia|]. rewrite Hx. cbn [deref rbind].
      unfold assign at 1. rewrite Hy. cbn [at_or_throw rbind].
      destruct (IH (<[p:=x]> g)) as (g' & E & H1 & H2); [done| |].
      { intros p' z' Hin Hz'. destruct (Hes p' z') as [? ?]; [by right|done|]. split; [done|].
        apply lookup_insert_is_Some'. by right. }
      exists g'. split_and!; [done| |].
      + intros p' i [[= -> Hi]|Hin]%elem_of_cons; [|by apply H1].
        rewrite H2 by (intros z' Hz'; by apply Hp' in Hz'). rewrite lookup_insert, <- Hx. f_equal. lia.
      + intros p' Hp''. rewrite H2 by (intros z' Hz'; apply Hp''; by right).
        rewrite lookup_insert_ne; [done|]. intros ->. apply Hz, Hp''. left. }
  destruct (Hg (visit eqs) field) as (g' & E & H1 & H2); [done| |].
  { intros p z. rewrite Hin. apply Hf. }
  exists g'. split_and!; [done| |].
  - intros p i Hp. apply H1. by apply Hin.
  - intros p Hp. apply H2. intros z. rewrite Hin. intros Hz. destruct Hp; congruence.
Qed.
