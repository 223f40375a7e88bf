(* Vectors, matrices and forms: lib/mito/tensor.

   Simplifications. Scalars (tensor::scalar_t = double) are real numbers: rounding, overflow, NaN
   and signed zeros are not modelled. Vectors and matrices come from the external pyre::tensor
   library: [vec], [mat] and the operations on them are the mathematical ones, and a vector of
   dimension D is a function of which only the components 0 .. D-1 are ever read. *)
From Coq Require Import Reals List Bool.
Import ListNotations.
Open Scope R_scope.

(* tensor::vector_t<D> (pyre::tensor, external). lib/mito/tensor/api.h lines 17-18. *)
Definition vec := nat -> R.
(* tensor::matrix_t<D> and its symmetric and diagonal variants (pyre::tensor, external).
   lib/mito/tensor/api.h lines 17-18. *)
Definition mat := nat -> nat -> R.

(* The sum of the first [n] values of [f]. The loops of pyre::tensor behind lib/mito/tensor/api.h
   line 18. *)
Fixpoint rsum (n : nat) (f : nat -> R) : R :=
  match n with
  | O => 0
  | S m => rsum m f + f m
  end.

(* vector + vector, vector - vector, scalar * vector, vector / scalar (pyre::tensor).
   lib/mito/tensor/api.h line 18. *)
Definition vadd (u v : vec) : vec := fun i => u i + v i.
(* vector - vector (pyre::tensor, external; lib/mito/tensor/api.h line 18). *)
Definition vsub (u v : vec) : vec := fun i => u i - v i.
(* scalar * vector (pyre::tensor, external; lib/mito/tensor/api.h line 18). *)
Definition vscale (a : R) (u : vec) : vec := fun i => a * u i.
(* vector / scalar (pyre::tensor, external; lib/mito/tensor/api.h line 18). *)
Definition vdiv (u : vec) (a : R) : vec := fun i => u i / a.
(* the default constructed vector (pyre::tensor, external; lib/mito/tensor/api.h line 18). *)
Definition vzero : vec := fun _ => 0.

(* vector * vector: the contraction of two vectors (pyre::tensor). lib/mito/tensor/api.h line 18. *)
Definition dot (D : nat) (u v : vec) : R := rsum D (fun i => u i * v i).

(* tensor::norm (pyre::tensor). lib/mito/tensor/api.h line 18. *)
Definition norm (D : nat) (u : vec) : R := sqrt (dot D u u).

(* tensor::e<I, D>: the unit vectors (pyre::tensor, used by lib/mito/tensor/api.h). *)
Definition unitv (I : nat) : vec := fun i => if Nat.eqb i I then 1 else 0.

(* matrix * vector (pyre::tensor). lib/mito/tensor/api.h line 18. *)
Definition mvec (D : nat) (m : mat) (v : vec) : vec := fun i => rsum D (fun j => m i j * v j).
(* matrix * matrix (pyre::tensor). lib/mito/tensor/api.h line 18. *)
Definition mmul (D : nat) (m n : mat) : mat := fun i j => rsum D (fun k => m i k * n k j).
(* tensor::identity<D> (pyre::tensor). lib/mito/tensor/api.h line 18. *)
Definition mid : mat := fun i j => if Nat.eqb i j then 1 else 0.

(* Vectors given by their components: vector_t<D>{ ... }. As in polar/algebra.h line 34. *)
Definition vec1 (a : R) : vec := fun i => match i with 0%nat => a | _ => 0 end.
(* two components, as in polar/algebra.h line 34. *)
Definition vec2 (a b : R) : vec := fun i => match i with 0%nat => a | 1%nat => b | _ => 0 end.
(* three components, as in spherical/algebra.h line 63. *)
Definition vec3 (a b c : R) : vec :=
  fun i => match i with 0%nat => a | 1%nat => b | 2%nat => c | _ => 0 end.

(* tensor::determinant and tensor::inverse for D = 1, 2, 3 (pyre::tensor, reached through
   lib/mito/functions/algebra.h lines 94-110). Other dimensions are never used by mito. *)
Definition det1 (m : mat) : R := m 0%nat 0%nat.
(* the case D = 2 (pyre::tensor, external; functions/algebra.h lines 101-104). *)
Definition det2 (m : mat) : R := m 0%nat 0%nat * m 1%nat 1%nat - m 0%nat 1%nat * m 1%nat 0%nat.
(* the case D = 3 (pyre::tensor, external; functions/algebra.h lines 101-104). *)
Definition det3 (m : mat) : R :=
  m 0%nat 0%nat * (m 1%nat 1%nat * m 2%nat 2%nat - m 1%nat 2%nat * m 2%nat 1%nat)
  - m 0%nat 1%nat * (m 1%nat 0%nat * m 2%nat 2%nat - m 1%nat 2%nat * m 2%nat 0%nat)
  + m 0%nat 2%nat * (m 1%nat 0%nat * m 2%nat 1%nat - m 1%nat 1%nat * m 2%nat 0%nat).

(* tensor::determinant, by dimension (pyre::tensor, external; functions/algebra.h lines 101-104). *)
Definition mdet (D : nat) (m : mat) : R :=
  match D with
  | 1%nat => det1 m
  | 2%nat => det2 m
  | 3%nat => det3 m
  | _ => 0
  end.

(* The minor obtained by deleting row [i] and column [j]. Part of tensor::inverse (pyre::tensor,
   external; functions/algebra.h lines 107-110). *)
Definition skip (i k : nat) : nat := if Nat.ltb k i then k else S k.
(* the minor itself; part of tensor::inverse (functions/algebra.h lines 107-110). *)
Definition minor (i j : nat) (m : mat) : mat := fun a b => m (skip i a) (skip j b).
(* the sign of a cofactor; part of tensor::inverse (functions/algebra.h lines 107-110). *)
Definition sgn (k : nat) : R := if Nat.even k then 1 else -1.

(* tensor::inverse, by dimension (pyre::tensor, external; functions/algebra.h lines 107-110). *)
Definition minv (D : nat) (m : mat) : mat :=
  match D with
  | 1%nat => fun i j => / det1 m
  | 2%nat => fun i j => sgn (i + j) * det1 (minor j i m) / det2 m
  | 3%nat => fun i j => sgn (i + j) * det2 (minor j i m) / det3 m
  | _ => fun _ _ => 0
  end.

(* ------------------------------------------------------------------------------------------- *)
(* Forms. *)

(* Form.h lines 14-22: an argument of a form is a vector or the dummy [_], here [None]. *)
Definition arg := option vec.

(* The values that form expressions take: a scalar, or a P-form given by its action on a list of
   arguments (Form.h lines 26-80). [None] as the result of an action stands for an expression the
   compiler rejects (no matching overload). *)
Inductive val : Type :=
  | Sc (r : R)
  | Fm (P : nat) (f : list arg -> option val).

(* Form::operator(): lines 39-45 for P > 1, lines 66-75 for one-forms: a one-form contracted with
   the dummy returns itself. A wrong number of arguments does not compile. Simplification: a
   two-form contracted with two dummies also returns itself here; in the code its action is
   evaluated on them, and all the two-forms of the library (sums, multiples, tensor products) then
   rebuild the same form, one-form * one-form being their tensor product. *)
Definition app (v : val) (args : list arg) : option val :=
  match v with
  | Sc _ => None
  | Fm P f =>
      if Nat.eqb (length args) P then
        match P, args with
        | 1%nat, [None] => Some v
        | 2%nat, [None; None] => Some v
        | _, _ => f args
        end
      else None
  end.

(* Sequencing of two subexpressions. As in forms_algebra.h lines 12-26. *)
Definition both (a b : option val) (k : val -> val -> option val) : option val :=
  match a, b with
  | Some x, Some y => k x y
  | _, _ => None
  end.

(* fA + fB on forms of the same degree: forms_algebra.h lines 12-19; on scalars, the sum. Two
   forms of different degrees do not add. *)
Fixpoint add (a b : val) : option val :=
  match a, b with
  | Sc r, Sc s => Some (Sc (r + s))
  | Fm P f, Fm Q g =>
      if Nat.eqb P Q then
        Some (Fm P (fun args =>
          match f args, g args with
          | Some x, Some y => add x y
          | _, _ => None
          end))
      else None
  | _, _ => None
  end.

(* scalar * form: forms_algebra.h lines 28-34; on scalars, the product. *)
Fixpoint scale (a : R) (v : val) : val :=
  match v with
  | Sc r => Sc (a * r)
  | Fm P f =>
      Fm P (fun args =>
        match f args with
        | Some w => Some (scale a w)
        | None => None
        end)
  end.

(* The products of which at least one factor is a scalar: scalar * scalar, scalar * form, and
   form * scalar (forms_algebra.h lines 36-40). *)
Definition smul (a b : val) : option val :=
  match a, b with
  | Sc r, _ => Some (scale r b)
  | Fm _ _, Sc s => Some (scale s a)
  | Fm _ _, Fm _ _ => None
  end.

(* Whether a value is a one-form. The concept one_form_c, used in tensor.h lines 13-38 and wedge.h
   lines 13-56. *)
Definition is_one (v : val) : bool :=
  match v with
  | Fm 1 _ => true
  | _ => false
  end.

(* tensor(a, b): tensor.h lines 13-23. The case of two dummies is that of [app]. *)
Definition tensor2 (a b : val) : option val :=
  if is_one a && is_one b then
    Some (Fm 2 (fun args =>
      match args with
      | [x; y] => both (app a [x]) (app b [y]) smul
      | _ => None
      end))
  else None.

(* The products of form expressions: forms_algebra.h lines 21-40; one-form * one-form is their
   tensor product (lines 21-26). *)
Definition mul (a b : val) : option val :=
  match a, b with
  | Fm _ _, Fm _ _ => tensor2 a b
  | _, _ => smul a b
  end.

(* tensor(a, b, c): tensor.h lines 25-38. The product associates to the left. *)
Definition tensor3 (a b c : val) : option val :=
  if is_one a && is_one b && is_one c then
    Some (Fm 3 (fun args =>
      match args with
      | [x; y; z] =>
          both (both (app a [x]) (app b [y]) mul) (app c [z]) mul
      | _ => None
      end))
  else None.

(* Unary minus: forms_algebra.h lines 42-46; subtraction: lines 48-52. *)
Definition opp (a : val) : val := scale (-1) a.
(* subtraction: forms_algebra.h lines 48-52. *)
Definition sub (a b : val) : option val := add a (opp b).

(* wedge(a, b): wedge.h lines 34-39. *)
Definition wedge2 (a b : val) : option val := both (tensor2 a b) (tensor2 b a) sub.

(* [app] of the result of an expression. As in wedge.h lines 41-83. *)
Definition app_of (v : option val) (args : list arg) : option val :=
  match v with
  | Some w => app w args
  | None => None
  end.

(* wedge(a, b, c): wedge.h lines 41-56. *)
Definition wedge3 (a b c : val) : option val :=
  if is_one a && is_one b && is_one c then
    Some (Fm 3 (fun args =>
      match args with
      | [x; y; z] =>
          both
            (both (both (app a [x]) (app_of (wedge2 b c) [y; z]) mul)
                  (both (app b [x]) (app_of (wedge2 c a) [y; z]) mul) add)
            (both (app c [x]) (app_of (wedge2 a b) [y; z]) mul) add
      | _ => None
      end))
  else None.

(* wedge of one, two and three one-forms as the parameter pack of metric_space.h lines 48-54
   calls it: wedge.h lines 13-18, 34-39, 41-56; more have no overload. *)
Definition wedge (forms : list val) : option val :=
  match forms with
  | [a] => if is_one a then Some a else None
  | [a; b] => wedge2 a b
  | [a; b; c] => wedge3 a b c
  | _ => None
  end.

(* wedge of a one-form [b] and a two-form [a]: wedge.h lines 64-83, with sign = +1 for P1 = 1
   (line 70). The inner wedges are those of a scalar with a form (lines 20-32). *)
Definition is_two (v : val) : bool :=
  match v with
  | Fm 2 _ => true
  | _ => false
  end.

(* wedge(scalar, form) and wedge(form, scalar): wedge.h lines 20-32. *)
Definition wedge_scalar (s v : option val) : option val :=
  match s, v with
  | Some (Sc r), Some (Fm P f) => Some (scale r (Fm P f))
  | _, _ => None
  end.

(* wedge.h lines 64-83, for a one-form and a two-form. *)
Definition wedge12 (b a : val) : option val :=
  if is_one b && is_two a then
    add
      (Fm 3 (fun args =>
         match args with
         | [x; y; z] => app_of (wedge_scalar (app b [x]) (Some a)) [y; z]
         | _ => None
         end))
      (scale 1
        (Fm 3 (fun args =>
           match args with
           | [x; y; z] => app_of (wedge_scalar (app a [x; y]) (Some b)) [z]
           | _ => None
           end)))
  else None.

(* one_form(f): factories.h lines 12-17, for a function of a vector. *)
Definition one_form (f : vec -> R) : val :=
  Fm 1 (fun args =>
    match args with
    | [Some v] => Some (Sc (f v))
    | _ => None
    end).

(* one_form(vector, matrix): factories.h lines 26-49, [matrix * vector * v]. *)
Definition one_form_of (D : nat) (v : vec) (m : mat) : val :=
  one_form (fun u => dot D (mvec D m v) u).
