(** Vocabulary of C117: the dipole on a half-space against the layered theory. *)
From Coq Require Import Reals List.
From Coquelicot Require Import Coquelicot.
From Verif Require Import Vec3 Cplx Model_FDEM Spec_Fourier Spec_Hankel.
Open Scope R_scope.

(** scipy's iv and kv are not modelled.  All that is asked of them is Nicholson's integral for I_n(z) K_n(z), n = 1, 2
    (DLMF 10.32.16 with s = z sinh t, continued from z > 0 to Re z > 0) *)
Definition bessel_products (iv kv : nat -> C -> C) : Prop :=
  forall n z, n = 1%nat \/ n = 2%nat -> 0 < Re z ->
  is_cint (fun s => let u := csqrt (RtoC (s ^ 2) + z * z)%C in
                    RtoC (bessel0 (2 * s)) * (cpow ((u - RtoC s) / z) (2 * n) / u))%C (iv n z * kv n z)%C.

(** the point at horizontal distance r from [s] in the direction (c, n), at height 0 like the receivers of the class *)
Definition at_distance (s : vec3) (c n r : R) : vec3 := V3 (vx s + r * c) (vy s + r * n) 0.

(** the horizontal component of [H] in the direction (c, n), and the one a quarter turn to the left of it *)
Definition radial (H : cvec) (c n : R) : C := (RtoC c * cvx H + RtoC n * cvy H)%C.
Definition transverse (H : cvec) (c n : R) : C := (RtoC (- n) * cvx H + RtoC c * cvy H)%C.
