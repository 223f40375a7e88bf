(* The values, on the elements of the mesh, of the field that the Poisson program computes. *)
From stdpp Require Import base gmap list sorting.
From Coq Require Import Reals Lra.
From Verif Require Import Base M_Tensor M_Geometry S_Geometry P_Volume.
From Verif Require Import M_Functions S_Functions P_Functions M_Quadrature S_Quadrature P_Quadrature P_Integrator M_Topology M_Fem S_Fem P_Fem P_FemBlocks P_FemNorms Properties_Fem.
From Verif Require Import P_Mesh S_Discrete M_System S_System P_System Properties_System P_Galerkin M_Poisson S_Poisson P_Poisson Properties_Poisson.
From Verif Require Import M_Solver S_Solver P_Solver P_SolverMesh Properties_Solver.
Local Open Scope nat_scope.

Section field.
  Context {K : Type} `{Countable K} (E : element_type) (debug : bool).
  Context (fresh : gset nat → nat) (Hfresh : fresh_ok fresh) (alive : gset nat).
  Context (point : K → nat) (cs : csys) (x : K → vec) (cells domain : list (list K)).
  Context (Hplaced : ∀ k, k ∈ concat cells → find_point (point k) cs = Some (x k)).
  Context (Hcells : good_cells E x cells) (Hdom : good_domain E cells domain).

  Lemma program_field q f order visit ksp fs d (W : list K → polynomial) es :
    poisson_program E debug fresh alive point cs cells domain q f order visit ksp = Ok (fs, d) →
    piecewise E x cells domain W →
    (∀ c nodes a p, (c, nodes) ∈ fs_elements fs → nodes !! a = Some p →
       ds_solution d !! p = Some (poly (W c) (node E (x <$> c) a))) →
    build_elements E point cs fs = Ok es →
    Forall2 (λ c e, made e (x <$> c) ∧ ∀ p, field_value (Nodal (nodal (ds_solution d))) e p = poly (W c) (position E (x <$> c) p)) cells es.
  Proof.
    intros Hrun HW Hels Hbuild.
    destruct (Properties_Solver.discretize_layout E fresh Hfresh alive x cells domain Hcells Hdom) as (fs0 & name & Hfs & HL).
    unfold poisson_program in Hrun. rewrite Hfs in Hrun. cbn [rbind] in Hrun.
    assert (fs0 = fs) as ->.
    { destruct (build_elements E point cs fs0) as [es0| |]; cbn [rbind] in Hrun; [|discriminate Hrun..].
      destruct (make_discrete_system _ _ _ _) as [d0| |]; cbn [rbind] in Hrun; [|discriminate Hrun..].
      destruct (solve _ _ _ _ _ _) as [d1| |]; cbn [rbind] in Hrun; [|discriminate Hrun..]. by injection Hrun. }
    destruct (Properties_Solver.elements_made E point cs x cells domain Hplaced Hcells fs name HL) as (es0 & Hbuild0 & Hes).
    rewrite Hbuild in Hbuild0. injection Hbuild0 as <-.
    assert (HF : Forall (λ c, c ∈ cells) cells) by (by apply Forall_forall).
    assert (Hes' : Forall2 (λ c e, c ∈ cells ∧ made e (x <$> c) ∧ ∀ a, a < n_nodes E → (name <$> places E c) !! a = Some (connectivity e a)) cells es).
    { assert (X : ∀ (P : list K → element E → Prop) l l', Forall (λ c, c ∈ cells) l → Forall2 P l l' → Forall2 (λ c e, c ∈ cells ∧ P c e) l l').
      { intros P l l' Hl HP. induction HP as [|c e l l' Hce Hrest IH]; constructor.
        - split; [|done]. by apply Forall_cons in Hl as [? _].
        - apply IH. by apply Forall_cons in Hl as [_ ?]. }
      by apply X. }
    refine (Forall2_impl _ _ _ _ Hes' _). intros c e (Hc & Hm & Hn). split; [done|]. intros p. cbn [field_value].
    rewrite <- (image_position e (x <$> c) p Hm), <- (C49_interpolant e (x <$> c) (W c) p Hm (proj1 HW c Hc)).
    unfold interpolant. apply rsum_ext. intros a Ha. f_equal. unfold nodal.
    rewrite (Hels c (name <$> places E c) a (connectivity e a)); [done| |by apply Hn].
    rewrite (l_elements _ _ _ _ _ HL). by apply (elem_of_list_fmap_1 (λ c, (c, name <$> places E c))).
  Qed.
End field.
