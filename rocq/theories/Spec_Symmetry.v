(** Rigid motions and how vectors move with them. *)
From Coq Require Import Reals List.
From Coquelicot Require Import Coquelicot.
From Verif Require Import Vec3 Cplx Model_Static.
Open Scope R_scope.

(** [m] is orthogonal: a rotation, a mirror image or both *)
Definition is_isometry (m : mat3) : Prop := mmul (mtrans m) m = mid /\ mmul m (mtrans m) = mid.
(** the rigid motion p |-> m p + t *)
Definition move (m : mat3) (t p : vec3) : vec3 := vadd (mvec m p) t.
(** Vectors such as E, J, g move with [m].  Vectors such as B, H and a magnetic moment, whose
    direction is a sense of rotation, move with (det m) m: a mirror image also reverses them. *)
Definition polar (m : mat3) (v : vec3) : vec3 := mvec m v.
Definition axial (m : mat3) (v : vec3) : vec3 := vscal (mdet m) (mvec m v).
(** the same for complex vectors, real and imaginary part separately *)
Definition cjoin (a b : vec3) : cvec := CV (vx a, vx b) (vy a, vy b) (vz a, vz b).
Definition cpolar (m : mat3) (v : cvec) : cvec := cjoin (polar m (re_vec v)) (polar m (im_vec v)).
Definition caxial (m : mat3) (v : cvec) : cvec := cjoin (axial m (re_vec v)) (axial m (im_vec v)).
(** a tensor: T |-> m T m^T *)
Definition tensor (m : mat3) (T : mat3) : mat3 := mmul m (mmul T (mtrans m)).
Definition map_fields {A B} (f : A -> B) (x : fields A) : fields B :=
  match x with One a => One (map f a) | Three t p s => Three (map f t) (map f p) (map f s) end.
(** a rigid motion that maps the horizontal surface z = 0 to itself and up to up *)
Definition is_horizontal (m : mat3) (t : vec3) : Prop := is_isometry m /\ mvec m (V3 0 0 1) = V3 0 0 1 /\ vz t = 0.
