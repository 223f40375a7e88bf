(* A matrix solver that does what is expected of one: elimination, followed by a test of the result. Nothing
   in the code corresponds to it; it shows that the expectations can be met. *)
From stdpp Require Import base gmap list.
From Coq Require Import Reals Lra.
From Verif Require Import Base M_Fem S_Discrete M_System S_System P_System P_Galerkin M_Solver S_Solver.
Open Scope nat_scope.

Fixpoint eliminate (N : nat) (A : nat → nat → R) (b : nat → R) : nat → R :=
  match N with
  | 0 => λ _, 0%R
  | S N =>
      let x := eliminate N (λ i j, A (S i) (S j) - A (S i) 0%nat * A 0%nat (S j) / A 0%nat 0%nat)%R
                 (λ i, b (S i) - A (S i) 0%nat / A 0%nat 0%nat * b 0%nat)%R in
      λ i, match i with
           | 0 => ((b 0%nat - sumR ((λ j, A 0%nat (S j) * x j)%R <$> seq 0 N)) / A 0%nat 0%nat)%R
           | S i => x i
           end
  end.

Lemma eliminate_ok N : ∀ A b, positive_definite N A → ∀ i, i < N → row N A (eliminate N A b) i = b i.
Proof.
  induction N as [|N IH]; intros A b HA; [lia|].
  assert (H0 : (0 < A 0%nat 0%nat)%R).
  { pose proof (HA (λ i, if decide (i = 0) then 1%R else 0%R)) as H. unfold quad in H. rewrite sumR_S in H.
    rewrite (sumR_zero _ (seq 0 N)) in H.
    - rewrite sumR_S in H. rewrite (sumR_zero _ (seq 0 N)) in H.
      + rewrite !(decide_True (P := 0 = 0)) in H by done. rewrite Rmult_1_l, Rmult_1_r, !Rplus_0_r in H. apply H.
        exists 0. split; [lia|]. rewrite decide_True by done. lra.
      + intros j _. rewrite (decide_False (P := S j = 0)) by lia. lra.
    - intros i _. apply sumR_zero. intros j _. rewrite (decide_False (P := S i = 0)) by lia. lra. }
  pose (S_ i j := (A (S i) (S j) - A (S i) 0%nat * A 0%nat (S j) / A 0%nat 0%nat)%R).
  pose (back (x : nat → R) (c : R) i := match i with 0 => ((c - sumR ((λ j, A 0%nat (S j) * x j)%R <$> seq 0%nat N)) / A 0%nat 0%nat)%R | S i => x i end).
  assert (Hrow0 : ∀ x c, row (S N) A (back x c) 0 = c).
  { intros x c. unfold row. rewrite sumR_S. cbn [back]. field. lra. }
  assert (HrowS : ∀ x c i, row (S N) A (back x c) (S i) = (row N S_ x i + A (S i) 0%nat / A 0%nat 0%nat * c)%R).
  { intros x c i. unfold row. rewrite sumR_S. cbn [back]. unfold S_.
    rewrite (sumR_ext (λ j, (A (S i) (S j) - A (S i) 0%nat * A 0%nat (S j) / A 0%nat 0%nat) * x j)%R
      (λ j, A (S i) (S j) * x j - A (S i) 0%nat / A 0%nat 0%nat * (A 0%nat (S j) * x j))%R) by (intros; field; lra).
    rewrite sumR_minus, sumR_mult_l. field. lra. }
  pose proof (IH S_ (λ i, b (S i) - A (S i) 0%nat / A 0%nat 0%nat * b 0%nat)%R) as Hx.
  assert (HS : positive_definite N S_).
  { intros x (k & Hk & Hxk). replace (quad N S_ x x) with (quad (S N) A (back x 0%R) (back x 0%R)).
    - apply HA. exists (S k). split; [lia|done].
    - rewrite !quad_row, sumR_S, Hrow0. rewrite (sumR_ext _ (λ i, x i * row N S_ x i)%R); [lra|].
      intros i _. rewrite HrowS. cbn [back]. lra. }
  specialize (Hx HS). change (eliminate (S N) A b) with (back (eliminate N S_ (λ i, b (S i) - A (S i) 0%nat / A 0%nat 0%nat * b 0%nat)%R) (b 0)).
  intros [|i] Hi; [apply Hrow0|]. rewrite HrowS, Hx by lia. lra.
Qed.

Definition satisfied (s : linear_system) (u : list R) (i : nat) : bool :=
  if Req_EM_T (sumR ((λ j, (entries s i j * nth j u 0)%R) <$> seq 0 (length u))) (s_rhs s (Z.of_nat i)) then true else false.

Definition elimination : krylov := λ s v,
  let u := eliminate (length v) (entries s) (λ i, s_rhs s (Z.of_nat i)) <$> seq 0 (length v) in
  (u, forallb (satisfied s u) (seq 0 (length v))).

Lemma elimination_good : good_solver elimination.
Proof.
  assert (HL : ∀ s v, length (elimination s v).1 = length v) by (intros; cbn; by rewrite fmap_length, seq_length).
  split; [done|]. split.
  - intros s v _ Ht i Hi. rewrite HL in Hi. cbn [elimination snd] in Ht. rewrite forallb_forall in Ht. specialize (Ht i).
    unfold satisfied in Ht. destruct (Req_EM_T _ _) as [He|]; [exact He|]. discriminate Ht. apply in_seq. lia.
  - intros s v _ _ Hp. cbn [elimination snd]. apply forallb_forall. intros i Hi. apply in_seq in Hi. unfold satisfied.
    destruct (Req_EM_T _ _) as [|Hne]; [done|]. exfalso. apply Hne. rewrite fmap_length, seq_length.
    pose proof (eliminate_ok (length v) (entries s) (λ i, s_rhs s (Z.of_nat i)) Hp i ltac:(lia)) as He. cbn beta in He. rewrite <- He.
    unfold row. apply sumR_seq_ext. intros j Hj. f_equal.
    apply nth_lookup_Some. rewrite list_lookup_fmap, lookup_seq_lt by lia. done.
Qed.
