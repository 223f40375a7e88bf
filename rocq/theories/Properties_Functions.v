(* C45-C47: the function algebra, symbolic derivatives and differential operators of
   lib/mito/functions and lib/mito/fields. Scalars are real numbers (no rounding). *)
From Coq Require Import Reals List Bool Arith Lia Lra.
From Verif Require Import M_Tensor M_Functions S_Functions P_Volume P_Functions.
Import ListNotations.
Open Scope R_scope.

(* ------------------------------------------------------------------------------------------- *)
(* C45 *)

(* Whenever derivative<I>(f) compiles, its value at a regular point is the partial derivative of f
   with respect to the I-th component of the argument, component by component. *)
Theorem C45_derivative x y (f d : fn x y) I k p :
  derivative I f = Some d -> regular f p -> (I < size x)%nat -> (k < size y)%nat ->
  is_partial (eval f) I k p (eval d p k).
Proof.
  intros Hd Hp HI Hk. apply der_of in Hd. destruct Hd as [Hr ->]. apply der_partial; assumption.
Qed.

(* It compiles exactly for the expressions made of functions that have a rule. *)
Theorem C45_compiles x y (f : fn x y) I : (exists d, derivative I f = Some d) <-> has_rule f = true.
Proof.
  split.
  - intros [d Hd]. apply der_of in Hd. apply Hd.
  - intros H. exists (der I f). apply der_some, H.
Qed.

(* The derivatives determine the function to first order in every direction, not only along the
   axes: along any differentiable curve through a regular point, f changes at the rate given by
   the sum of its partial derivatives times the speed of the components. *)
Theorem C45_curves x y (f : fn x y) (D : nat -> fn x y) (c : R -> value) (v : nat -> R) t0 k :
  (forall I, (I < size x)%nat -> derivative I f = Some (D I)) ->
  (0 < size x)%nat ->
  regular f (c t0) ->
  (forall i, (i < size x)%nat -> derivable_pt_lim (fun t => c t i) t0 (v i)) ->
  (k < size y)%nat ->
  derivable_pt_lim (fun t => eval f (c t) k) t0 (rsum (size x) (fun I => eval (D I) (c t0) k * v I)).
Proof.
  intros HD Hx Hr Hc Hk. destruct (der_of _ _ _ (HD 0%nat Hx)) as [Hf _].
  eapply dlim_eq; [| exact (along f Hf c v t0 Hr Hc k Hk)].
  apply rsum_ext. intros I HI. destruct (der_of _ _ _ (HD I HI)) as [_ ->]. reflexivity.
Qed.

(* Derivatives of any order: they compile, they are regular wherever f is, and each is the partial
   derivative of the one before. *)
Theorem C45_any_order x y (f : fn x y) Is p :
  has_rule f = true -> regular f p ->
  exists d, derivatives Is f = Some d /\ regular d p /\
    forall I k, (I < size x)%nat -> (k < size y)%nat ->
      exists e, derivatives (Is ++ [I]) f = Some e /\ is_partial (eval d) I k p (eval e p k).
Proof.
  revert f. induction Is as [|J Is IH]; intros f Hr Hp.
  - exists f. split; [reflexivity|]. split; [exact Hp|]. intros I k HI Hk.
    exists (der I f). simpl. rewrite (der_some f I Hr). split; [reflexivity|].
    apply der_partial; assumption.
  - simpl. rewrite (der_some f J Hr). apply IH.
    + apply again_mut; assumption.
    + apply regular_mut; assumption.
Qed.

(* derivative(f) is the matrix of the partial derivatives: one row for each component of the value,
   one column for each component of the argument. *)
Theorem C45_matrix x y (f : fn x y) g p i k :
  jacobian f = Some g -> regular f p -> (i < size y)%nat -> (k < size x)%nat ->
  is_partial (eval f) k i p (entry (size x) (eval g p) i k).
Proof.
  intros Hg Hp Hi Hk. destruct (jacobian_entries f g Hg) as [Hr HE].
  unfold entry. rewrite HE by assumption. apply der_partial; assumption.
Qed.
Theorem C45_matrix_compiles x y (f : fn x y) :
  (0 < size x)%nat -> (0 < size y)%nat ->
  (exists g, jacobian f = Some g) <-> has_rule f = true.
Proof.
  intros Hx Hy. split.
  - intros [g Hg]. apply (jacobian_entries f g Hg).
  - intros H. apply jacobian_some; assumption.
Qed.

(* ------------------------------------------------------------------------------------------- *)
(* C46 *)

(* The operators evaluate to the operation applied to the values, component by component. *)
Theorem C46_arithmetic x y (f g : fn x y) (h : fn x scalar) (a : value) (c : R) p k :
  eval (f_add f g) p k = eval f p k + eval g p k /\
  eval (f_sub f g) p k = eval f p k - eval g p k /\
  eval (f_opp f) p k = - eval f p k /\
  eval (c_add_f a f) p k = a k + eval f p k /\
  eval (f_add_c f a) p k = eval f p k + a k /\
  eval (c_sub_f a f) p k = a k - eval f p k /\
  eval (f_sub_c f a) p k = eval f p k - a k /\
  eval (c_mul_f (mul_sa y) (num c) f) p k = c * eval f p k /\
  eval (f_mul_c (mul_as y) f (num c)) p k = eval f p k * c /\
  eval (f_div_c f c) p k = eval f p k / c /\
  eval (f_mul (mul_sa y) h f) p k = eval h p 0%nat * eval f p k /\
  eval (f_mul (mul_as y) f h) p k = eval f p k * eval h p 0%nat /\
  eval (f_div f h) p k = eval f p k / eval h p 0%nat /\
  eval (c_div_f (y := y) a h) p k = a k / eval h p 0%nat.
Proof.
  simpl. unfold num, Rdiv. repeat split; ring.
Qed.

(* Products of functions with matrix and vector values, row by column. *)
Theorem C46_products x l m n (u v : fn x (vector n)) (w : fn x (vector m)) (A : fn x (matrix m n))
    (B : fn x (matrix n l)) p :
  eval (f_mul (mul_vv n) u v) p 0%nat = rsum n (fun k => eval u p k * eval v p k) /\
  (forall i, eval (f_mul (mul_mv m n) A u) p i =
     rsum n (fun j => entry n (eval A p) i j * eval u p j)) /\
  (forall j, eval (f_mul (mul_vm m n) w A) p j =
     rsum m (fun i => eval w p i * entry n (eval A p) i j)) /\
  (forall i j, (j < l)%nat -> entry l (eval (f_mul (mul_mm m n l) A B) p) i j =
     rsum n (fun k => entry n (eval A p) i k * entry l (eval B p) k j)).
Proof.
  unfold entry. simpl. repeat split. intros i j Hj.
  assert (l <> 0)%nat by lia.
  rewrite (Nat.add_comm (i * l) j), Nat.div_add, Nat.mod_add, Nat.div_small, Nat.mod_small by assumption.
  reflexivity.
Qed.

(* Multiplication by a constant is multiplication by the constant function, on either side. *)
Theorem C46_constants x a b y (op : mulop a b y) (f : fn x a) (g : fn x b) (c : value) p k :
  eval (f_mul_c op f c) p k = eval (f_mul op f (Constant c)) p k /\
  eval (c_mul_f op c g) p k = eval (f_mul op (Constant c) g) p k /\
  eval (Constant (x := x) (y := a) c) p k = c k.
Proof. repeat split. Qed.

(* Summations and linear combinations. *)
Theorem C46_sums x y (fs : fns x y) (cs : cfns x y) p k :
  eval (Summation fs) p k = total (map (fun f => eval f p k) (functions_of fs)) /\
  eval (LinearCombination cs) p k = total (map (fun cf => fst cf * eval (snd cf) p k) (terms_of cs)).
Proof.
  simpl. split.
  - clear cs. induction fs as [x y f | x y f fs IH]; simpl; unfold total in *; simpl; [ring|]. rewrite IH. reflexivity.
  - clear fs. induction cs as [x y c f | x y c f fs IH]; simpl; unfold total in *; simpl; [ring|]. rewrite IH. reflexivity.
Qed.

(* Composition, subscript, transpose, dyadic product, determinant and inverse. *)
Theorem C46_tensors x y z t m n (f : fn y z) (g : fn x y) (h : fn x (tensor t)) (A : fn x (matrix m n))
    (B : fn x (matrix n n)) (u v : fn x (vector n)) p i j :
  (forall k, eval (f_call f g) p k = eval f (eval g p) k) /\
  eval (f_sub_at h i) p 0%nat = eval h p i /\
  ((j < m)%nat -> entry m (eval (f_transpose A) p) i j = entry n (eval A p) j i) /\
  ((j < n)%nat -> entry n (eval (f_dyadic u v) p) i j = eval u p i * eval v p j) /\
  eval (f_determinant B) p 0%nat = mdet n (entry n (eval B p)) /\
  ((1 <= n <= 3)%nat -> mdet n (entry n (eval B p)) <> 0 -> (i < n)%nat -> (j < n)%nat ->
   rsum n (fun k => entry n (eval B p) i k * entry n (eval (f_inverse B) p) k j) =
     (if Nat.eqb i j then 1 else 0) /\
   rsum n (fun k => entry n (eval (f_inverse B) p) i k * entry n (eval B p) k j) =
     (if Nat.eqb i j then 1 else 0)).
Proof.
  assert (DM : forall a b l, (b < l)%nat -> ((a * l + b) / l = a /\ (a * l + b) mod l = b)%nat).
  { intros a b l Hb. assert (l <> 0)%nat by lia.
    rewrite (Nat.add_comm (a * l) b), Nat.div_add, Nat.mod_add, Nat.div_small, Nat.mod_small by assumption.
    split; reflexivity. }
  split; [reflexivity|]. split; [reflexivity|]. split; [|split; [|split]].
  - intros Hj. unfold entry. simpl. destruct (DM i j m Hj) as [-> ->]. reflexivity.
  - intros Hj. unfold entry. simpl. destruct (DM i j n Hj) as [-> ->]. reflexivity.
  - reflexivity.
  - intros Hn Hdet Hi Hj.
    set (M := entry n (eval B p)) in *.
    assert (EI : forall a b, (b < n)%nat -> entry n (eval (f_inverse B) p) a b = minv n M a b).
    { intros a b Hb. unfold entry. simpl. destruct (DM a b n Hb) as [-> ->]. reflexivity. }
    rewrite (rsum_ext n (fun k => M i k * entry n (eval (f_inverse B) p) k j) (fun k => M i k * minv n M k j)) by
      (intros k _; rewrite EI by exact Hj; reflexivity).
    rewrite (rsum_ext n (fun k => entry n (eval (f_inverse B) p) i k * M k j) (fun k => minv n M i k * M k j)) by
      (intros k Hk; rewrite EI by exact Hk; reflexivity).
    clearbody M. clear EI DM.
    destruct n as [|[|[|[|n']]]]; try lia;
      destruct i as [|[|[|i]]]; try lia; destruct j as [|[|[|j]]]; try lia;
      unfold mdet, minv, minor, skip, sgn, det1, det2, det3 in *; simpl in *;
      unfold det1, det2, det3 in *; simpl in *; split; field; exact Hdet.
Qed.

(* The library functions are the real functions of the same names; the power is the product of N
   factors and the cube root the number whose cube is the argument. *)
Theorem C46_library t N p :
  eval (Component (t := t) N) p 0%nat = p N /\
  eval Sin p 0%nat = sin (p 0%nat) /\ eval Cos p 0%nat = cos (p 0%nat) /\
  eval Tan p 0%nat = sin (p 0%nat) / cos (p 0%nat) /\
  (-1 <= p 0%nat <= 1 -> cos (eval ArcCos p 0%nat) = p 0%nat /\ 0 <= eval ArcCos p 0%nat <= PI) /\
  (-1 <= p 0%nat <= 1 -> sin (eval ArcSin p 0%nat) = p 0%nat /\ - (PI / 2) <= eval ArcSin p 0%nat <= PI / 2) /\
  (tan (eval ArcTan p 0%nat) = p 0%nat /\ - PI / 2 < eval ArcTan p 0%nat < PI / 2) /\
  eval Exp p 0%nat = exp (p 0%nat) /\
  (0 < p 0%nat -> exp (eval Log p 0%nat) = p 0%nat) /\
  (0 <= p 0%nat -> 0 <= eval Sqrt p 0%nat /\ eval Sqrt p 0%nat * eval Sqrt p 0%nat = p 0%nat) /\
  (eval Cbrt p 0%nat) ^ 3 = p 0%nat /\
  eval (Power N) p 0%nat = p 0%nat ^ N.
Proof.
  simpl. unfold num.
  split; [reflexivity|]. split; [reflexivity|]. split; [reflexivity|]. split; [reflexivity|].
  split; [intros H; split; [apply cos_acos, H | apply acos_bound]|].
  split; [intros H; split; [apply sin_asin, H | apply asin_bound]|].
  split; [split; [apply tan_atan | apply atan_bound]|].
  split; [reflexivity|].
  split; [apply exp_ln|].
  split; [intros H; split; [apply sqrt_pos | apply sqrt_sqrt, H]|].
  split; [|apply power_pow].
  rewrite Rmult_1_r, <- Rmult_assoc. apply cbrt_cube.
Qed.

(* A function only depends on the components of its argument. *)
Theorem C46_arguments x y (f : fn x y) p q k :
  regular f p -> (forall i, (i < size x)%nat -> p i = q i) -> (k < size y)%nat ->
  eval f p k = eval f q k.
Proof. intros Hp E Hk. exact (proj1 local_mut x y f p q Hp E k Hk). Qed.

(* ------------------------------------------------------------------------------------------- *)
(* C47 *)

Theorem C47_gradient_scalar D (f : fn (vector D) scalar) g p i :
  gradient_scalar f = Some g -> regular f p -> (i < D)%nat ->
  is_partial (eval f) i 0 p (eval g p i).
Proof.
  intros Hg Hp Hi. destruct (gradient_scalar_entries f g Hg) as [Hr HE].
  rewrite HE by exact Hi. apply der_partial; simpl; auto.
Qed.

Theorem C47_gradient_vector D N (f : fn (vector D) (vector N)) g p i k :
  gradient_vector f = Some g -> regular f p -> (i < N)%nat -> (k < D)%nat ->
  is_partial (eval f) k i p (entry D (eval g p) i k).
Proof.
  intros Hg Hp Hi Hk. destruct (gradient_vector_entries f g Hg) as [Hr HE].
  unfold entry. rewrite HE by assumption. apply der_partial; assumption.
Qed.

(* The divergence of a vector field is the sum of the partial derivatives of its components with
   respect to the coordinates of the same index. *)
Theorem C47_divergence_vector D (f : fn (vector D) (vector D)) g p :
  divergence_vector f = Some g -> regular f p ->
  exists l, (forall i, (i < D)%nat -> is_partial (eval f) i i p (l i)) /\
    eval g p 0%nat = rsum D l.
Proof.
  intros Hg Hp. destruct (divergence_vector_value f g Hg) as [Hr HE].
  exists (fun i => eval (der i f) p i). split; [|apply HE].
  intros i Hi. apply der_partial; assumption.
Qed.

(* The k-th component of the divergence of a tensor field is the sum of the partial derivatives of
   the entries of its k-th row with respect to the coordinates of the same index. *)
Theorem C47_divergence_tensor D (f : fn (vector D) (matrix D D)) g p k :
  divergence_tensor f = Some g -> regular f p -> (k < D)%nat ->
  exists l, (forall i, (i < D)%nat -> is_partial (fun p => entry D (eval f p) k) i i p (l i)) /\
    eval g p k = rsum D l.
Proof.
  intros Hg Hp Hk. destruct (divergence_tensor_entries f g Hg) as [Hr HE].
  exists (fun i => eval (der i f) p (k * D + i)%nat). split; [|apply HE, Hk].
  intros i Hi. apply (der_partial f i (k * D + i) p Hr Hp Hi). simpl. nia.
Qed.

(* They compile for all fields that have derivatives. *)
Theorem C47_compiles D N (f : fn (vector D) scalar) (u : fn (vector D) (vector N))
    (v : fn (vector D) (vector D)) (T : fn (vector D) (matrix D D)) :
  (0 < D)%nat -> (0 < N)%nat ->
  (has_rule f = true <-> exists g, gradient_scalar f = Some g) /\
  (has_rule u = true <-> exists g, gradient_vector u = Some g) /\
  (has_rule v = true <-> exists g, divergence_vector v = Some g) /\
  (has_rule T = true <-> exists g, divergence_tensor T = Some g).
Proof.
  intros HD HN. repeat split.
  - intros H; apply gradient_scalar_some; assumption.
  - intros [g Hg]. apply (gradient_scalar_entries f g Hg).
  - intros H; apply gradient_vector_some; assumption.
  - intros [g Hg]. apply (gradient_vector_entries u g Hg).
  - intros H; apply divergence_vector_some; assumption.
  - intros [g Hg]. apply (divergence_vector_value v g Hg).
  - intros H; apply divergence_tensor_some; assumption.
  - intros [g Hg]. apply (divergence_tensor_entries T g Hg).
Qed.

(* The divergence is the trace of the gradient. *)
Theorem C47_trace D (f : fn (vector D) (vector D)) g d p :
  gradient_vector f = Some g -> divergence_vector f = Some d ->
  eval d p 0%nat = rsum D (fun i => entry D (eval g p) i i).
Proof.
  intros Hg Hd. destruct (gradient_vector_entries f g Hg) as [_ Eg].
  destruct (divergence_vector_value f d Hd) as [_ Ed]. rewrite Ed.
  apply rsum_ext. intros i Hi. unfold entry. rewrite Eg by exact Hi. reflexivity.
Qed.

(* Linearity: the gradient and divergence of a * f + g. *)
Theorem C47_linear D N (a : R)
    (f f' : fn (vector D) scalar) (u u' : fn (vector D) (vector N))
    (v v' : fn (vector D) (vector D)) (T T' : fn (vector D) (matrix D D))
    gf gf' gu gu' dv dv' dT dT' gs gus dvs dTs p :
  gradient_scalar f = Some gf -> gradient_scalar f' = Some gf' ->
  gradient_scalar (f_add (c_mul_f (mul_sa _) (num a) f) f') = Some gs ->
  gradient_vector u = Some gu -> gradient_vector u' = Some gu' ->
  gradient_vector (f_add (c_mul_f (mul_sa _) (num a) u) u') = Some gus ->
  divergence_vector v = Some dv -> divergence_vector v' = Some dv' ->
  divergence_vector (f_add (c_mul_f (mul_sa _) (num a) v) v') = Some dvs ->
  divergence_tensor T = Some dT -> divergence_tensor T' = Some dT' ->
  divergence_tensor (f_add (c_mul_f (mul_sa _) (num a) T) T') = Some dTs ->
  (forall i, (i < D)%nat -> eval gs p i = a * eval gf p i + eval gf' p i) /\
  (forall i k, (i < N)%nat -> (k < D)%nat ->
     entry D (eval gus p) i k = a * entry D (eval gu p) i k + entry D (eval gu' p) i k) /\
  eval dvs p 0%nat = a * eval dv p 0%nat + eval dv' p 0%nat /\
  (forall k, (k < D)%nat -> eval dTs p k = a * eval dT p k + eval dT' p k).
Proof.
  intros H1 H2 H3 H4 H5 H6 H7 H8 H9 H10 H11 H12.
  destruct (gradient_scalar_entries _ _ H1) as [R1 E1].
  destruct (gradient_scalar_entries _ _ H2) as [R2 E2].
  destruct (gradient_scalar_entries _ _ H3) as [_ E3].
  destruct (gradient_vector_entries _ _ H4) as [R4 E4].
  destruct (gradient_vector_entries _ _ H5) as [R5 E5].
  destruct (gradient_vector_entries _ _ H6) as [_ E6].
  destruct (divergence_vector_value _ _ H7) as [R7 E7].
  destruct (divergence_vector_value _ _ H8) as [R8 E8].
  destruct (divergence_vector_value _ _ H9) as [_ E9].
  destruct (divergence_tensor_entries _ _ H10) as [R10 E10].
  destruct (divergence_tensor_entries _ _ H11) as [R11 E11].
  destruct (divergence_tensor_entries _ _ H12) as [_ E12].
  repeat split.
  - intros i Hi. rewrite E1, E2, E3, der_add, der_scale by assumption. reflexivity.
  - intros i k Hi Hk. unfold entry. rewrite E4, E5, E6, der_add, der_scale by assumption. reflexivity.
  - rewrite E7, E8, E9, <- rsum_scale, <- rsum_plus. apply rsum_ext. intros i _.
    rewrite der_add, der_scale by assumption. reflexivity.
  - intros k Hk. rewrite E10, E11, E12, <- rsum_scale, <- rsum_plus by assumption.
    apply rsum_ext. intros i _. rewrite der_add, der_scale by assumption. reflexivity.
Qed.

(* Leibniz rules: grad(f h), grad(f u), grad(v . w), div(f v), div(f T). *)
Theorem C47_leibniz D N (f h : fn (vector D) scalar) (u : fn (vector D) (vector N))
    (v w : fn (vector D) (vector D)) (T : fn (vector D) (matrix D D))
    gf gh gu gv gw dv dT gfh gfu gvw dfv dfT p :
  gradient_scalar f = Some gf -> gradient_scalar h = Some gh ->
  gradient_vector u = Some gu -> gradient_vector v = Some gv -> gradient_vector w = Some gw ->
  divergence_vector v = Some dv -> divergence_tensor T = Some dT ->
  gradient_scalar (f_mul (mul_sa _) f h) = Some gfh ->
  gradient_vector (f_mul (mul_sa _) f u) = Some gfu ->
  gradient_scalar (f_mul (mul_vv D) v w) = Some gvw ->
  divergence_vector (f_mul (mul_sa _) f v) = Some dfv ->
  divergence_tensor (f_mul (mul_sa _) f T) = Some dfT ->
  let F := eval f p 0%nat in
  (forall i, (i < D)%nat -> eval gfh p i = F * eval gh p i + eval gf p i * eval h p 0%nat) /\
  (forall i k, (i < N)%nat -> (k < D)%nat ->
     entry D (eval gfu p) i k = F * entry D (eval gu p) i k + eval u p i * eval gf p k) /\
  (forall k, (k < D)%nat -> eval gvw p k =
     rsum D (fun i => eval v p i * entry D (eval gw p) i k) +
     rsum D (fun i => entry D (eval gv p) i k * eval w p i)) /\
  eval dfv p 0%nat = F * eval dv p 0%nat + rsum D (fun i => eval gf p i * eval v p i) /\
  (forall k, (k < D)%nat -> eval dfT p k =
     F * eval dT p k + rsum D (fun i => entry D (eval T p) k i * eval gf p i)).
Proof.
  intros H1 H2 H3 H4 H5 H6 H7 H8 H9 H10 H11 H12 F.
  destruct (gradient_scalar_entries _ _ H1) as [R1 E1].
  destruct (gradient_scalar_entries _ _ H2) as [R2 E2].
  destruct (gradient_vector_entries _ _ H3) as [R3 E3].
  destruct (gradient_vector_entries _ _ H4) as [R4 E4].
  destruct (gradient_vector_entries _ _ H5) as [R5 E5].
  destruct (divergence_vector_value _ _ H6) as [R6 E6].
  destruct (divergence_tensor_entries _ _ H7) as [R7 E7].
  destruct (gradient_scalar_entries _ _ H8) as [_ E8].
  destruct (gradient_vector_entries _ _ H9) as [_ E9].
  destruct (gradient_scalar_entries _ _ H10) as [_ E10].
  destruct (divergence_vector_value _ _ H11) as [_ E11].
  destruct (divergence_tensor_entries _ _ H12) as [_ E12].
  repeat split.
  - intros i Hi. rewrite E1, E2, E8, der_product by assumption. simpl. fold F. ring.
  - intros i k Hi Hk. unfold entry. rewrite E1, E3, E9, der_product by assumption. simpl. fold F. ring.
  - intros k Hk. rewrite E10, der_product by assumption. simpl. f_equal; apply rsum_ext; intros i Hi; unfold entry.
    + rewrite E5 by assumption. reflexivity.
    + rewrite E4 by assumption. reflexivity.
  - rewrite E6, E11, <- rsum_scale, <- rsum_plus. apply rsum_ext. intros i Hi.
    rewrite E1, der_product by assumption. simpl. fold F. ring.
  - intros k Hk. rewrite E7, E12, <- rsum_scale, <- rsum_plus by assumption. apply rsum_ext. intros i Hi.
    unfold entry. rewrite E1, der_product by assumption. simpl. fold F. ring.
Qed.

(* ------------------------------------------------------------------------------------------- *)
(* Cases: an expression of depth, at a point where the hypotheses hold. *)

(* f(x, y) = sin(x y) / (1 + exp(y)) + sqrt(x)^3, a function of two variables. *)
Definition x_0 : fn (vector 2) scalar := Component 0.
Definition x_1 : fn (vector 2) scalar := Component 1.
Definition sample : fn (vector 2) scalar :=
  f_add (f_div (f_call Sin (f_mul (mul_sa scalar) x_0 x_1)) (c_add_f (num 1) (f_call Exp x_1)))
        (f_call (Power 3) (f_call Sqrt x_0)).
(* The point (1, 0). *)
Definition spot : value := fun k => match k with 0%nat => 1 | _ => 0 end.

Lemma sample_regular : regular sample spot.
Proof.
  simpl. unfold num. repeat split; try lia; try lra. pose proof (exp_pos 0). unfold spot. lra.
Qed.

Example C45_case : exists d, derivative 1 sample = Some d /\ regular sample spot /\
  is_partial (eval sample) 1 0 spot (eval d spot 0%nat) /\ eval d spot 0%nat = 1 / 2.
Proof.
  eexists. split; [reflexivity|]. split; [apply sample_regular|]. split.
  - apply C45_derivative; [reflexivity | apply sample_regular | simpl; lia | simpl; lia].
  - simpl. unfold num, zero_, spot. rewrite Rmult_0_r, cos_0, sin_0, exp_0, sqrt_1. field.
Qed.

(* A composition through a vector: (x, y) |-> (x y, x + y) |-> the product of the components. *)
Definition inner : fn (vector 2) (vector 2) :=
  f_add (f_mul_c (mul_sa (vector 2)) (f_mul (mul_sa scalar) x_0 x_1) (unit_ 0))
        (f_mul_c (mul_sa (vector 2)) (f_add x_0 x_1) (unit_ 1)).
Definition outer : fn (vector 2) scalar := f_mul (mul_sa scalar) x_0 x_1.
Example C45_chain_case : exists d, derivative 0 (f_call outer inner) = Some d /\
  forall a b, eval d (fun k => match k with 0%nat => a | _ => b end) 0%nat = 2 * a * b + b * b.
Proof.
  eexists. split; [reflexivity|]. intros a b. simpl. unfold num, zero_, unit_. simpl. ring.
Qed.

(* The determinant has no rule: its derivative does not compile. *)
Example C45_no_rule_case : derivative 0 (f_determinant (Constant (x := vector 2) (y := matrix 2 2) zero_)) = None.
Proof. reflexivity. Qed.

Example C47_case : exists g d, gradient_vector inner = Some g /\ divergence_vector inner = Some d /\
  regular inner spot /\
  forall a b, let p := fun k => match k with 0%nat => a | _ => b end in
    eval g p 0%nat = b /\ eval g p 1%nat = a /\ eval g p 2%nat = 1 /\ eval g p 3%nat = 1 /\
    eval d p 0%nat = b + 1.
Proof.
  eexists. eexists. split; [reflexivity|]. split; [reflexivity|]. split.
  - simpl. repeat split; lia.
  - intros a b p. simpl. unfold num, zero_, unit_, p. simpl. repeat split; ring.
Qed.

(* A tensor field: the matrix ((x y, x), (0, y)), whose divergence is (y, 1). *)
Definition field2 : fn (vector 2) (matrix 2 2) :=
  f_add (f_add (f_mul_c (mul_sa (matrix 2 2)) (f_mul (mul_sa scalar) x_0 x_1) (unit_ 0))
               (f_mul_c (mul_sa (matrix 2 2)) x_0 (unit_ 1)))
        (f_mul_c (mul_sa (matrix 2 2)) x_1 (unit_ 3)).
Example C47_tensor_case : exists d, divergence_tensor field2 = Some d /\ regular field2 spot /\
  forall a b, let p := fun k => match k with 0%nat => a | _ => b end in
    eval d p 0%nat = b /\ eval d p 1%nat = 1.
Proof.
  eexists. split; [reflexivity|]. split.
  - simpl. repeat split; lia.
  - intros a b p. simpl. unfold num, zero_, unit_, p. simpl. split; ring.
Qed.

Print Assumptions C45_derivative.
Print Assumptions C45_compiles.
Print Assumptions C45_curves.
Print Assumptions C45_any_order.
Print Assumptions C45_matrix.
Print Assumptions C45_matrix_compiles.
Print Assumptions C46_arithmetic.
Print Assumptions C46_products.
Print Assumptions C46_constants.
Print Assumptions C46_sums.
Print Assumptions C46_tensors.
Print Assumptions C46_library.
Print Assumptions C46_arguments.
Print Assumptions C47_gradient_scalar.
Print Assumptions C47_gradient_vector.
Print Assumptions C47_divergence_vector.
Print Assumptions C47_divergence_tensor.
Print Assumptions C47_compiles.
Print Assumptions C47_trace.
Print Assumptions C47_linear.
Print Assumptions C47_leibniz.
