(* Functions, their algebra and their symbolic derivatives: lib/mito/functions, and the
   differential operators on fields: lib/mito/fields/differential.h.

   The C++ code builds a function as an object whose type is an expression tree (one class template
   per node). [fn x y] is that tree, indexed by the kind of its argument and the kind of its value:
   a tree that is not well typed cannot be written, as in C++ where it does not compile.

   Simplifications. Scalars are real numbers (no rounding). A tensor is the sequence of its
   components in row-major order, the order of pyre::tensor's int subscripts, a matrix of m rows
   and n columns having its (i, j) component at place i * n + j; packed matrices (symmetric,
   diagonal) are taken as full ones. Coordinates are taken as vectors. Types related by an implicit
   conversion (int and double) are identified. *)
From Coq Require Import Reals List Bool Arith.
From Verif Require Import M_Tensor.
Import ListNotations.
Open Scope R_scope.

(* The tensors and the kinds of arguments and values: lib/mito/tensor/api.h lines 20-29,
   functions/forward.h lines 28-64. *)
Inductive tshape : Type := Vec (n : nat) | Mat (m n : nat).
(* functions/forward.h lines 28-64: a scalar or a tensor. *)
Inductive shape : Type := scalar | tensor (t : tshape).
(* tensor/api.h lines 20-34: tensor::vector_t<n>. *)
Notation vector n := (tensor (Vec n)).
(* tensor/api.h lines 45-79: tensor::matrix_t<m, n>. *)
Notation matrix m n := (tensor (Mat m n)).

(* The number of components (T::size in pyre::tensor). External; used in partial_derivatives.h lines
   21-90. *)
Definition size (s : shape) : nat :=
  match s with
  | scalar => 1
  | tensor (Vec n) => n
  | tensor (Mat m n) => m * n
  end.

(* The components of a scalar (one) or of a tensor. tensor/api.h lines 20-29. *)
Definition value := nat -> R.
(* A scalar as a value. tensor/api.h lines 20-25. *)
Definition num (r : R) : value := fun _ => r.
(* tensor::unit<T, k> (pyre::tensor): 1 at place k and 0 elsewhere. tensor/api.h lines 31-79. *)
Definition unit_ (k : nat) : value := fun i => if Nat.eqb i k then 1 else 0.
(* tensor::zero<T> (pyre::tensor). External; used in library_derivatives.h and derivation_rules.h
   for the derivatives of constants, cited below. *)
Definition zero_ : value := fun _ => 0.

(* operator* between scalars and tensors (pyre::tensor): scalar * anything, anything * scalar,
   vector * vector (the contraction), matrix * vector, vector * matrix, matrix * matrix. External;
   used by Product, functions/algebra.h lines 76-79. *)
Inductive mulop : shape -> shape -> shape -> Type :=
  | mul_sa (s : shape) : mulop scalar s s
  | mul_as (s : shape) : mulop s scalar s
  | mul_vv (n : nat) : mulop (vector n) (vector n) scalar
  | mul_mv (m n : nat) : mulop (matrix m n) (vector n) (vector m)
  | mul_vm (m n : nat) : mulop (vector m) (matrix m n) (vector n)
  | mul_mm (m n p : nat) : mulop (matrix m n) (matrix n p) (matrix m p).

(* the values of these products (pyre::tensor, external), functions/algebra.h lines 76-79. *)
Definition mul {a b c : shape} (op : mulop a b c) (u v : value) : value :=
  match op with
  | mul_sa _ => fun k => u 0%nat * v k
  | mul_as _ => fun k => u k * v 0%nat
  | mul_vv n => fun _ => rsum n (fun k => u k * v k)
  | mul_mv m n => fun i => rsum n (fun j => u (i * n + j)%nat * v j)
  | mul_vm m n => fun j => rsum m (fun i => u i * v (i * n + j)%nat)
  | mul_mm m n p => fun c =>
      rsum n (fun k => u (c / p * n + k)%nat * v (k * p + c mod p)%nat)
  end.

(* function.h: the node types. Functor is FunctionFromFunctor (25-66): any C++ callable, which
   sees the components of its argument. A Summation (118-170) has at least one function, a
   LinearCombination (173-243) too (here with scalar coefficients). The scalar library functions
   are in library_functions.h: Component 15-35, Sin 38-51, Cos 54-67, Tan 70-83, ArcCos 86-102,
   ArcSin 105-121, ArcTan 124-140, Exp 143-156, Log 159-172, Sqrt 175-191, Cbrt 194-210,
   Power 213-241. *)
Inductive fn : shape -> shape -> Type :=
  | Functor (x y : shape) (F : list R -> value) : fn x y
  | Constant (x y : shape) (c : value) : fn x y
  | Summation (x y : shape) (fs : fns x y) : fn x y
  | LinearCombination (x y : shape) (fs : cfns x y) : fn x y
  | FunctionPlusConstant (x y : shape) (f : fn x y) (a : value) : fn x y
  | Product (x a b y : shape) (op : mulop a b y) (f : fn x a) (g : fn x b) : fn x y
  | FunctionTimesConstant (x a b y : shape) (op : mulop a b y) (f : fn x a) (c : value) : fn x y
  | ConstantTimesFunction (x a b y : shape) (op : mulop a b y) (c : value) (f : fn x b) : fn x y
  | Reciprocal (x : shape) (f : fn x scalar) : fn x scalar
  | Composition (x y z : shape) (f : fn y z) (g : fn x y) : fn x z
  | Subscript (x : shape) (t : tshape) (f : fn x (tensor t)) (i : nat) : fn x scalar
  | Transpose (x : shape) (m n : nat) (f : fn x (matrix m n)) : fn x (matrix n m)
  | Determinant (x : shape) (n : nat) (f : fn x (matrix n n)) : fn x scalar
  | Inverse (x : shape) (n : nat) (f : fn x (matrix n n)) : fn x (matrix n n)
  | DyadicProduct (x : shape) (n : nat) (f g : fn x (vector n)) : fn x (matrix n n)
  | Component (t : tshape) (N : nat) : fn (tensor t) scalar
  | Sin : fn scalar scalar
  | Cos : fn scalar scalar
  | Tan : fn scalar scalar
  | ArcCos : fn scalar scalar
  | ArcSin : fn scalar scalar
  | ArcTan : fn scalar scalar
  | Exp : fn scalar scalar
  | Log : fn scalar scalar
  | Sqrt : fn scalar scalar
  | Cbrt : fn scalar scalar
  | Power (N : nat) : fn scalar scalar
with fns : shape -> shape -> Type :=
  | F1 (x y : shape) (f : fn x y) : fns x y
  | FS (x y : shape) (f : fn x y) (fs : fns x y) : fns x y
with cfns : shape -> shape -> Type :=
  | C1 (x y : shape) (c : R) (f : fn x y) : cfns x y
  | CS (x y : shape) (c : R) (f : fn x y) (fs : cfns x y) : cfns x y.

Arguments Functor {x y}.
Arguments Constant {x y}.
Arguments Summation {x y}.
Arguments LinearCombination {x y}.
Arguments FunctionPlusConstant {x y}.
Arguments Product {x a b y}.
Arguments FunctionTimesConstant {x a b y}.
Arguments ConstantTimesFunction {x a b y}.
Arguments Reciprocal {x}.
Arguments Composition {x y z}.
Arguments Subscript {x t}.
Arguments Transpose {x m n}.
Arguments Determinant {x n}.
Arguments Inverse {x n}.
Arguments DyadicProduct {x n}.
Arguments Component {t}.
Arguments F1 {x y}.
Arguments FS {x y}.
Arguments C1 {x y}.
Arguments CS {x y}.

(* std::cbrt: the real cube root. As used in library_functions.h line 208. *)
Definition cbrt (x : R) : R :=
  if Rlt_dec 0 x then Rpower x (/ 3)
  else if Rlt_dec x 0 then - Rpower (- x) (/ 3)
  else 0.

(* library_functions.h lines 218-225: Power::_power. *)
Fixpoint power (N : nat) (x : R) : R :=
  match N with
  | O => 1
  | S M => power M x * x
  end.

(* function.h: the call operators (61, 109, 158-162, 220-229, 286, 336-339, 395, 450, 487, 535,
   574, 627-630, 666-669, 717-720, 767-770) and those of library_functions.h. The standard
   functions std::sin, std::acos, ... are the real ones. *)
Fixpoint eval {x y : shape} (f : fn x y) {struct f} : value -> value :=
  match f with
  | @Functor x _ F => fun p => F (map p (seq 0 (size x)))
  | Constant c => fun _ => c
  | Summation fs => eval_sum fs
  | LinearCombination fs => eval_comb fs
  | FunctionPlusConstant f a => fun p k => eval f p k + a k
  | Product op f g => fun p => mul op (eval f p) (eval g p)
  | FunctionTimesConstant op f c => fun p => mul op (eval f p) c
  | ConstantTimesFunction op c f => fun p => mul op c (eval f p)
  | Reciprocal f => fun p => num (1 / eval f p 0%nat)
  | Composition f g => fun p => eval f (eval g p)
  | Subscript f i => fun p => num (eval f p i)
  | @Transpose _ m n f => fun p c => eval f p (c mod m * n + c / m)%nat
  | @Determinant _ n f => fun p => num (mdet n (fun i j => eval f p (i * n + j)%nat))
  | @Inverse _ n f => fun p c => minv n (fun i j => eval f p (i * n + j)%nat) (c / n)%nat (c mod n)%nat
  | @DyadicProduct _ n f g => fun p c => eval f p (c / n)%nat * eval g p (c mod n)%nat
  | Component N => fun p => num (p N)
  | Sin => fun p => num (sin (p 0%nat))
  | Cos => fun p => num (cos (p 0%nat))
  | Tan => fun p => num (tan (p 0%nat))
  | ArcCos => fun p => num (acos (p 0%nat))
  | ArcSin => fun p => num (asin (p 0%nat))
  | ArcTan => fun p => num (atan (p 0%nat))
  | Exp => fun p => num (exp (p 0%nat))
  | Log => fun p => num (ln (p 0%nat))
  | Sqrt => fun p => num (sqrt (p 0%nat))
  | Cbrt => fun p => num (cbrt (p 0%nat))
  | Power N => fun p => num (power N (p 0%nat))
  end
with eval_sum {x y : shape} (fs : fns x y) {struct fs} : value -> value :=
  match fs with
  | F1 f => eval f
  | FS f fs => fun p k => eval f p k + eval_sum fs p k
  end
with eval_comb {x y : shape} (fs : cfns x y) {struct fs} : value -> value :=
  match fs with
  | C1 c f => fun p k => c * eval f p k
  | CS c f fs => fun p k => c * eval f p k + eval_comb fs p k
  end.

(* algebra.h: the operators. *)
(* lines 16-19: f1 + f2. *)
Definition f_add {x y} (f g : fn x y) : fn x y := Summation (FS f (F1 g)).
(* lines 22-25: a + f. *)
Definition c_add_f {x y} (a : value) (f : fn x y) : fn x y := FunctionPlusConstant f a.
(* lines 28-31: f + a. *)
Definition f_add_c {x y} (f : fn x y) (a : value) : fn x y := c_add_f a f.
(* lines 34-37: a * f. *)
Definition c_mul_f {x a b y} (op : mulop a b y) (c : value) (f : fn x b) : fn x y :=
  ConstantTimesFunction op c f.
(* lines 40-43: f * a. *)
Definition f_mul_c {x a b y} (op : mulop a b y) (f : fn x a) (c : value) : fn x y :=
  FunctionTimesConstant op f c.
(* lines 46-49: f / a. *)
Definition f_div_c {x y} (f : fn x y) (a : R) : fn x y := c_mul_f (mul_sa y) (num (1 / a)) f.
(* lines 52-55: -f. *)
Definition f_opp {x y} (f : fn x y) : fn x y := c_mul_f (mul_sa y) (num (-1)) f.
(* lines 58-61: f1 - f2. *)
Definition f_sub {x y} (f g : fn x y) : fn x y := f_add f (f_opp g).
(* lines 64-67: a - f. *)
Definition c_sub_f {x y} (a : value) (f : fn x y) : fn x y := c_add_f a (f_opp f).
(* lines 70-73: f - a. *)
Definition f_sub_c {x y} (f : fn x y) (a : value) : fn x y := f_add_c f (fun k => - a k).
(* lines 76-79: f1 * f2. *)
Definition f_mul {x a b y} (op : mulop a b y) (f : fn x a) (g : fn x b) : fn x y := Product op f g.
(* lines 82-86: a / f. *)
Definition c_div_f {x y} (a : value) (f : fn x scalar) : fn x y :=
  c_mul_f (mul_as y) a (Reciprocal f).
(* lines 89-92: f1 / f2. *)
Definition f_div {x y} (f : fn x y) (g : fn x scalar) : fn x y :=
  f_mul (mul_as y) f (Reciprocal g).
(* lines 95-98, 101-104, 107-110, 113-117. *)
Definition f_transpose {x m n} (f : fn x (matrix m n)) : fn x (matrix n m) := Transpose f.
(* lines 101-104. *)
Definition f_determinant {x n} (f : fn x (matrix n n)) : fn x scalar := Determinant f.
(* lines 107-110. *)
Definition f_inverse {x n} (f : fn x (matrix n n)) : fn x (matrix n n) := Inverse f.
(* lines 113-117. *)
Definition f_dyadic {x n} (f g : fn x (vector n)) : fn x (matrix n n) := DyadicProduct f g.
(* function.h lines 40-44 and alike: calling a function with a function. *)
Definition f_call {x y z} (f : fn y z) (g : fn x y) : fn x z := Composition f g.
(* function.h lines 47-51 and alike: subscripting a function. *)
Definition f_sub_at {x t} (f : fn x (tensor t)) (i : nat) : fn x scalar := Subscript f i.

(* The fold (fs + ...) over a pack of functions, as used below. [None] when one of them does not
   compile; an empty pack does not compile either. fields/differential.h lines 28, 56-61, 82,
   109-114. *)
Fixpoint f_fold {x y} (fs : list (option (fn x y))) : option (fn x y) :=
  match fs with
  | [] => None
  | [f] => f
  | f :: fs =>
      match f, f_fold fs with
      | Some f, Some g => Some (f_add f g)
      | _, _ => None
      end
  end.

(* derivation_rules.h lines 66-71: the chain rule when the inner function is scalar valued. *)
Definition chain_scalar {x z} (d1 : option (fn scalar z)) (d2 : option (fn x scalar))
    (f2 : fn x scalar) : option (fn x z) :=
  match d1, d2 with
  | Some d1, Some d2 => Some (f_mul (mul_as z) (f_call d1 f2) d2)
  | _, _ => None
  end.

(* derivation_rules.h lines 74-88: the chain rule when the inner function is a tensor-valued
   function of tensors. The derivative of the subscript f2[J] is the subscript of the derivative
   [d2] (lines 99-104). *)
Definition chain_tensor {x t z} (d1 : nat -> option (fn (tensor t) z)) (d2 : option (fn x (tensor t)))
    (f2 : fn x (tensor t)) : option (fn x z) :=
  f_fold (map (fun J =>
    match d1 J, d2 with
    | Some d1, Some d2 => Some (f_mul (mul_as z) (f_call d1 f2) (Subscript d2 J))
    | _, _ => None
    end) (seq 0 (size (tensor t)))).

(* derivation_rules.h lines 66-88: which of the two rules applies. There is none for an inner
   tensor-valued function of scalars. *)
Definition chain {x y z} (I : nat) (d1 : nat -> option (fn y z)) (d2 : option (fn x y))
    (f2 : fn x y) : option (fn x z) :=
  match y as y return (nat -> option (fn y z)) -> option (fn x y) -> fn x y -> option (fn x z) with
  | scalar => fun d1 d2 f2 => chain_scalar (d1 I) d2 f2
  | tensor t => fun d1 d2 f2 =>
      match x with
      | scalar => None
      | tensor _ => chain_tensor d1 d2 f2
      end
  end d1 d2 f2.

(* library_derivatives.h lines 20-32: pow<N>. *)
Definition power_derivative (N : nat) : fn scalar scalar :=
  match N with
  | 1%nat => Constant (num 1)
  | _ => c_mul_f (mul_sa scalar) (num (INR N)) (Power (N - 1))
  end.

(* derivative<I>(f): derivation_rules.h (Summation 23-28, FunctionPlusConstant 31-35,
   FunctionTimesConstant 38-42, ConstantTimesFunction 45-49, Product 52-56, Reciprocal 59-63,
   Composition 66-88, Transpose 91-96, Subscript 99-104, LinearCombination 107-113) and
   library_derivatives.h (Constant 12-18, Power 20-32, Sin 34-39, Cos 41-46, Tan 48-53,
   ArcCos 55-60, ArcSin 62-67, ArcTan 69-74, Exp 76-81, Log 83-88, Sqrt 90-95, Cbrt 97-102,
   Component 104-113). [None] when there is no rule: functors (whose derivative the user supplies),
   determinants, inverses and dyadic products. Not modelled: the rule for linear combinations
   does not compile when two of the functions have the same C++ type. *)
Fixpoint derivative (I : nat) {x y : shape} (f : fn x y) {struct f} : option (fn x y) :=
  match f in fn x y return option (fn x y) with
  | Functor _ => None
  | Constant _ => Some (Constant zero_)
  | Summation fs => derivative_sum I fs
  | LinearCombination fs =>
      match derivative_comb I fs with Some fs => Some (LinearCombination fs) | None => None end
  | FunctionPlusConstant f _ => derivative I f
  | FunctionTimesConstant op f c =>
      match derivative I f with Some d => Some (f_mul_c op d c) | None => None end
  | ConstantTimesFunction op c f =>
      match derivative I f with Some d => Some (c_mul_f op c d) | None => None end
  | Product op f g =>
      match derivative I f, derivative I g with
      | Some df, Some dg => Some (f_add (f_mul op f dg) (f_mul op df g))
      | _, _ => None
      end
  | Reciprocal f =>
      match derivative I f with
      | Some d => Some (f_div (c_mul_f (mul_sa scalar) (num (-1)) d) (f_mul (mul_sa scalar) f f))
      | None => None
      end
  | Composition f g => chain I (fun J => derivative J f) (derivative I g) g
  | Subscript f i =>
      match derivative I f with Some d => Some (Subscript d i) | None => None end
  | Transpose f =>
      match derivative I f with Some d => Some (f_transpose d) | None => None end
  | Determinant _ => None
  | Inverse _ => None
  | DyadicProduct _ _ => None
  | Component N => Some (if Nat.eqb I N then Constant (num 1) else Constant (num 0))
  | Sin => Some Cos
  | Cos => Some (f_opp Sin)
  | Tan => Some (c_div_f (num 1) (f_call (Power 2) Cos))
  | ArcCos => Some (c_div_f (num (-1)) (f_call Sqrt (c_sub_f (num 1) (Power 2))))
  | ArcSin => Some (c_div_f (num 1) (f_call Sqrt (c_sub_f (num 1) (Power 2))))
  | ArcTan => Some (c_div_f (num 1) (c_add_f (num 1) (Power 2)))
  | Exp => Some Exp
  | Log => Some (c_div_f (num 1) (Power 1))
  | Sqrt => Some (c_div_f (num (5 / 10)) Sqrt)
  | Cbrt => Some (c_div_f (num (1 / 3)) (f_call (Power 2) Cbrt))
  | Power N => Some (power_derivative N)
  end
with derivative_sum (I : nat) {x y : shape} (fs : fns x y) {struct fs} : option (fn x y) :=
  match fs in fns x y return option (fn x y) with
  | F1 f => derivative I f
  | FS f fs =>
      match derivative I f, derivative_sum I fs with
      | Some d, Some ds => Some (f_add d ds)
      | _, _ => None
      end
  end
with derivative_comb (I : nat) {x y : shape} (fs : cfns x y) {struct fs} : option (cfns x y) :=
  match fs in cfns x y return option (cfns x y) with
  | C1 c f => match derivative I f with Some d => Some (C1 c d) | None => None end
  | CS c f fs =>
      match derivative I f, derivative_comb I fs with
      | Some d, Some ds => Some (CS c d ds)
      | _, _ => None
      end
  end.

(* one more rule applied to the result of [derivative], as in derivation_rules.h lines 23-28: no
   line of its own in /repo. *)
Definition obind {A B} (o : option A) (k : A -> option B) : option B :=
  match o with Some a => k a | None => None end.

(* The I-th component of a function as [f[I]], or the function itself when it is scalar valued.
   partial_derivatives.h lines 21-90. *)
Definition at_component {x y} (f : fn x y) (I : nat) : fn x scalar :=
  match y as y return fn x y -> fn x scalar with
  | scalar => fun f => f
  | tensor t => fun f => f_sub_at f I
  end f.

(* partial_derivatives.h lines 21-90: the matrix of the partial derivatives, one row for each
   component of the value and one column for each component of the argument. The three overloads
   (tensor functions, scalar-valued functions of tensors, tensor-valued functions of scalars) only
   differ by the sizes. Simplification: a tensor of a single component is subscripted like the
   others, where the code (lines 37-38) multiplies it by the unit matrix. For a scalar function of
   scalars, derivative(f) is derivative<0>(f) (lines 15-19). *)
Definition jacobian {x y} (f : fn x y) : option (fn x (matrix (size y) (size x))) :=
  f_fold (map (fun K =>
    f_fold (map (fun I =>
      obind (derivative K (at_component f I)) (fun d =>
        Some (f_mul_c (mul_sa (matrix (size y) (size x))) d (unit_ (I * size x + K)%nat))))
      (seq 0 (size y))))
    (seq 0 (size x))).

(* fields/differential.h lines 14-32: the gradient of a scalar field. *)
Definition gradient_scalar {D} (field : fn (vector D) scalar) : option (fn (vector D) (vector D)) :=
  f_fold (map (fun I =>
    obind (derivative I field) (fun d =>
      Some (f_mul (mul_sa (vector D)) d (Constant (unit_ I)))))
    (seq 0 D)).

(* lines 35-65: the gradient of a vector field. *)
Definition gradient_vector {D N} (field : fn (vector D) (vector N))
    : option (fn (vector D) (matrix N D)) :=
  f_fold (map (fun K =>
    f_fold (map (fun I =>
      obind (derivative K (f_mul (mul_vv N) field (Constant (unit_ I)))) (fun d =>
        Some (f_mul (mul_sa (matrix N D)) d (Constant (unit_ (I * D + K)%nat)))))
      (seq 0 N)))
    (seq 0 D)).

(* lines 68-87: the divergence of a vector field. *)
Definition divergence_vector {D} (field : fn (vector D) (vector D)) : option (fn (vector D) scalar) :=
  f_fold (map (fun I =>
    derivative I (f_mul (mul_vv D) field (Constant (unit_ I))))
    (seq 0 D)).

(* lines 90-118: the divergence of a tensor field. *)
Definition divergence_tensor {D} (field : fn (vector D) (matrix D D))
    : option (fn (vector D) (vector D)) :=
  f_fold (map (fun K =>
    f_fold (map (fun I =>
      obind (derivative I (f_mul (mul_vv D) (f_mul (mul_mv D D) field (Constant (unit_ I)))
                                            (Constant (unit_ K)))) (fun d =>
        Some (f_mul (mul_sa (vector D)) d (Constant (unit_ K)))))
      (seq 0 D)))
    (seq 0 D)).
