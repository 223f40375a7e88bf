(* What the functions of lib/mito/functions are expected to compute, in terms of the ordinary
   calculus of the standard library's real numbers. *)
From Coq Require Import Reals List Bool Arith.
From Verif Require Import M_Tensor M_Functions.
Open Scope R_scope.

(* [p] with its I-th component replaced by [t]. *)
Definition with_component (p : value) (I : nat) (t : R) : value :=
  fun k => if Nat.eqb k I then t else p k.

(* [l] is the partial derivative at [p], with respect to the I-th component of the argument, of the
   k-th component of [g]: the limit of the difference quotients ([derivable_pt_lim] is the
   epsilon-delta definition of the standard library). *)
Definition is_partial (g : value -> value) (I k : nat) (p : value) (l : R) : Prop :=
  derivable_pt_lim (fun t => g (with_component p I t) k) (p I) l.

(* [p] is a point where every part of the expression is defined and differentiable: subscripts are
   in range, denominators do not vanish, and the library functions are away from the borders of
   their domains. *)
Fixpoint regular {x y : shape} (f : fn x y) {struct f} : value -> Prop :=
  match f with
  | Functor _ => fun _ => True
  | Constant _ => fun _ => True
  | Summation fs => regular_sum fs
  | LinearCombination fs => regular_comb fs
  | FunctionPlusConstant f _ => regular f
  | Product _ f g => fun p => regular f p /\ regular g p
  | FunctionTimesConstant _ f _ => regular f
  | ConstantTimesFunction _ _ f => regular f
  | Reciprocal f => fun p => regular f p /\ eval f p 0%nat <> 0
  | Composition f g => fun p => regular g p /\ regular f (eval g p)
  | @Subscript _ t f i => fun p => (i < size (tensor t))%nat /\ regular f p
  | Transpose f => regular f
  | Determinant f => regular f
  | Inverse f => regular f
  | DyadicProduct f g => fun p => regular f p /\ regular g p
  | @Component t N => fun _ => (N < size (tensor t))%nat
  | Sin | Cos | ArcTan | Exp => fun _ => True
  | Tan => fun p => cos (p 0%nat) <> 0
  | ArcCos | ArcSin => fun p => -1 < p 0%nat < 1
  | Log | Sqrt => fun p => 0 < p 0%nat
  | Cbrt => fun p => p 0%nat <> 0
  | Power N => fun _ => (1 <= N)%nat
  end
with regular_sum {x y : shape} (fs : fns x y) {struct fs} : value -> Prop :=
  match fs with
  | F1 f => regular f
  | FS f fs => fun p => regular f p /\ regular_sum fs p
  end
with regular_comb {x y : shape} (fs : cfns x y) {struct fs} : value -> Prop :=
  match fs with
  | C1 _ f => regular f
  | CS _ f fs => fun p => regular f p /\ regular_comb fs p
  end.

(* The expressions the library knows how to differentiate: those without functors, determinants,
   inverses or dyadic products, and whose inner functions in compositions are scalar valued or
   take a tensor. *)
Fixpoint has_rule {x y : shape} (f : fn x y) {struct f} : bool :=
  match f with
  | Functor _ | Determinant _ | Inverse _ | DyadicProduct _ _ => false
  | Summation fs => has_rule_sum fs
  | LinearCombination fs => has_rule_comb fs
  | FunctionPlusConstant f _ => has_rule f
  | Product _ f g => has_rule f && has_rule g
  | FunctionTimesConstant _ f _ => has_rule f
  | ConstantTimesFunction _ _ f => has_rule f
  | Reciprocal f => has_rule f
  | @Composition x y _ f g =>
      has_rule f && has_rule g &&
      match x, y with
      | _, scalar => true
      | tensor _, tensor t => (0 <? size (tensor t))%nat
      | scalar, tensor _ => false
      end
  | Subscript f _ => has_rule f
  | Transpose f => has_rule f
  | _ => true
  end
with has_rule_sum {x y : shape} (fs : fns x y) {struct fs} : bool :=
  match fs with
  | F1 f => has_rule f
  | FS f fs => has_rule f && has_rule_sum fs
  end
with has_rule_comb {x y : shape} (fs : cfns x y) {struct fs} : bool :=
  match fs with
  | C1 _ f => has_rule f
  | CS _ f fs => has_rule f && has_rule_comb fs
  end.

(* The functions of a summation, and the coefficients and functions of a linear combination. *)
Fixpoint functions_of {x y} (fs : fns x y) : list (fn x y) :=
  match fs with
  | F1 f => f :: nil
  | FS f fs => f :: functions_of fs
  end%list.
Fixpoint terms_of {x y} (fs : cfns x y) : list (R * fn x y) :=
  match fs with
  | C1 c f => (c, f) :: nil
  | CS c f fs => (c, f) :: terms_of fs
  end%list.

(* The sum of a list of numbers. *)
Definition total (l : list R) : R := fold_right Rplus 0 l.

(* The (i, j) entry of a matrix of [n] columns. *)
Definition entry (n : nat) (v : value) (i j : nat) : R := v (i * n + j)%nat.

(* The derivative with respect to a sequence of components, the first one first. *)
Fixpoint derivatives {x y} (Is : list nat) (f : fn x y) : option (fn x y) :=
  match Is with
  | nil => Some f
  | cons J Js => match derivative J f with Some d => derivatives Js d | None => None end
  end.
