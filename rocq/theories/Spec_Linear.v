(** Linear combinations of vectors and of possibly failing evaluations. *)
From Coq Require Import Reals List.
From Coquelicot Require Import Coquelicot.
From Verif Require Import Vec3 Cplx Numpy Model_Static.
Import ListNotations.
Open Scope R_scope.

(** a u + b v *)
Definition vcomb (a b : R) (u v : vec3) : vec3 := vadd (vscal a u) (vscal b v).
Definition ccomb (a b : R) (u v : cvec) : cvec := cvadd (cvscal (RtoC a) u) (cvscal (RtoC b) v).
(** both evaluations succeed and are combined, or the first failure is passed on *)
Definition rcomb (a b : R) (u v : result vec3) : result vec3 := do x <- u; do y <- v; Ok (vcomb a b x y).
Definition ocomb (a b : R) (u v : option vec3) : option vec3 :=
  match u, v with Some x, Some y => Some (vcomb a b x y) | _, _ => None end.
Definition rocomb (a b : R) (u v : result (option vec3)) : result (option vec3) := do x <- u; do y <- v; Ok (ocomb a b x y).

(** a x + b y of numbers and of matrices *)
Definition scomb (a b x y : R) : R := a * x + b * y.
Definition mcomb (a b : R) (u v : mat3) : mat3 := madd (mscal a u) (mscal b v).
(** entry by entry over two arrays *)
Definition zipw {A} (f : A -> A -> A) (l m : list A) : list A := map (fun xy => f (fst xy) (snd xy)) (combine l m).
Definition rzip {A} (f : A -> A -> A) (u v : result (list A)) : result (list A) := do x <- u; do y <- v; Ok (zipw f x y).
Definition omap2 {A} (f : A -> A -> A) (u v : option A) : option A := match u, v with Some x, Some y => Some (f x y) | _, _ => None end.
(** one array, or total, primary and secondary *)
Definition fzip {A} (f : A -> A -> A) (u v : fields A) : fields A :=
  match u, v with
  | One x, One y => One (zipw f x y)
  | Three t p s, Three t' p' s' => Three (zipw f t t') (zipw f p p') (zipw f s s')
  | _, _ => One []
  end.
Definition rfzip {A} (f : A -> A -> A) (u v : result (fields A)) : result (fields A) := do x <- u; do y <- v; Ok (fzip f x y).
