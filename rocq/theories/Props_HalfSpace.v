(** Property C117: the dipole on a half-space is the layered dipole without layers. *)
From Coq Require Import Reals Lra List.
From Coquelicot Require Import Coquelicot.
From Verif Require Import Vec3 Cplx Model_FDEM Model_RTE Spec_FDEM Spec_Fourier Spec_Hankel Spec_HalfSpace Proof_HalfSpace3 Proof_HalfSpace4.
Import ListNotations.
Open Scope R_scope.

(** [rTE la]: what rTE_forward returns for the ground of [s] alone, at the frequency of [s] and the wavenumber [la] *)
Notation ground mu_0 s la := (py_rTE mu_0 (fd_freq (mh_med s)) la [fd_sigma_hat (mh_med s)] [RtoC mu_0] []).

(** the Hankel transform of order 0 of the secondary vertical field along any line from the dipole across its horizontal moment *)
Theorem C117_vertical_component :
  forall (iv kv : nat -> C -> C) (mu_0 : R) (s : mhalf) (c n la : R),
  0 < mu_0 -> 0 < fd_freq (mh_med s) -> 0 < fd_sigma (mh_med s) -> c * c + n * n = 1 -> 0 < la ->
  vx (mh_orient s) * c + vy (mh_orient s) * n = 0 ->
  is_cint (fun r => cvz (mh_H iv kv mu_0 s true (at_distance (mh_loc s) c n r)) * RtoC (r * bessel0 (la * r)))%C
    (RtoC (mh_moment s / (4 * PI) * vz (mh_orient s) * la) * ground mu_0 s la)%C.
Proof. intros iv kv mu_0 s c n la M F S U L. exact (vertical_lemma iv kv mu_0 s c n M F S U la L). Qed.
(** the transform of the horizontal field across the line, in any direction and for any orientation *)
Theorem C117_transverse_component :
  forall (iv kv : nat -> C -> C) (mu_0 : R) (s : mhalf) (c n la : R),
  0 < mu_0 -> 0 < fd_freq (mh_med s) -> 0 < fd_sigma (mh_med s) -> c * c + n * n = 1 -> 0 < la ->
  is_cint (fun r => transverse (mh_H iv kv mu_0 s true (at_distance (mh_loc s) c n r)) c n * RtoC (r ^ 2 * bessel1 (la * r)))%C
    (RtoC (mh_moment s / (4 * PI) * (vy (mh_orient s) * c - vx (mh_orient s) * n)) * ground mu_0 s la)%C.
Proof. intros iv kv mu_0 s c n la M F S U L. exact (transverse_lemma iv kv mu_0 s c n M F S U la L). Qed.
(** which leaves no freedom for the component along the line of a horizontal dipole *)
Theorem C117_horizontal_components_add_up :
  forall (iv kv : nat -> C -> C) (mu_0 : R) (md : fdem) (m : R) (loc p : vec3),
  0 < mu_0 -> 0 < fd_freq md -> 0 < fd_sigma md -> beside p loc ->
  (cvx (mh_H iv kv mu_0 (MH md m (V3 1 0 0) loc) true p) + cvy (mh_H iv kv mu_0 (MH md m (V3 0 1 0) loc) true p))%C
  = cvz (mh_H iv kv mu_0 (MH md m (V3 0 0 1) loc) true p).
Proof. intros iv kv mu_0 md m loc p M F S. exact (trace_lemma iv kv mu_0 md m loc M F S p). Qed.
(** the horizontal field of a vertical dipole and the vertical field of a horizontal one, where the code calls iv and kv *)
Theorem C117_radial_component :
  forall (iv kv : nat -> C -> C) (mu_0 : R) (s : mhalf) (c n r : R), bessel_products iv kv ->
  0 < mu_0 -> 0 < fd_freq (mh_med s) -> 0 < fd_sigma (mh_med s) -> c * c + n * n = 1 -> 0 < r ->
  vx (mh_orient s) * c + vy (mh_orient s) * n = 0 ->
  is_cint (fun la => RtoC (mh_moment s / (4 * PI) * vz (mh_orient s) * (la ^ 2 * bessel1 (la * r))) * ground mu_0 s la)%C
    (radial (mh_H iv kv mu_0 s true (at_distance (mh_loc s) c n r)) c n).
Proof. intros iv kv mu_0 s c n r B M F S U P Z. exact (radial_lemma iv kv mu_0 s c n M F S U r B P Z). Qed.
Theorem C117_vertical_component_of_a_horizontal_dipole :
  forall (iv kv : nat -> C -> C) (mu_0 : R) (s : mhalf) (c n r : R), bessel_products iv kv ->
  0 < mu_0 -> 0 < fd_freq (mh_med s) -> 0 < fd_sigma (mh_med s) -> c * c + n * n = 1 -> 0 < r -> vz (mh_orient s) = 0 ->
  is_cint (fun la => RtoC (- (mh_moment s / (4 * PI) * (vx (mh_orient s) * c + vy (mh_orient s) * n) * (la ^ 2 * bessel1 (la * r)))) * ground mu_0 s la)%C
    (cvz (mh_H iv kv mu_0 s true (at_distance (mh_loc s) c n r))).
Proof. intros iv kv mu_0 s c n r B M F S U P Z. exact (hz_lemma iv kv mu_0 s c n M F S U r B P Z). Qed.

(** an improper integral has one value, and there are functions with the product formula *)
Example one_value : forall F L L', is_cint F L -> is_cint F L' -> L = L'.
Proof. exact Proof_HalfSpace2.cint_unique. Qed.
Example products_witness : exists iv kv, bessel_products iv kv.
Proof. exists the_products, (fun _ _ => RtoC 1). exact products_exist. Qed.
(** a dipole in general position on a conducting ground: the hypotheses hold and the transforms are not zero *)
Example C117_witness :
  let s := MH (FD 90 2 1 0 PyFalse) 3 (V3 0 1 1) (V3 4 5 6) in
  0 < 1 /\ 0 < fd_freq (mh_med s) /\ 0 < fd_sigma (mh_med s) /\ 1 * 1 + 0 * 0 = 1 /\ vx (mh_orient s) * 1 + vy (mh_orient s) * 0 = 0 /\
  beside (V3 7 8 9) (mh_loc s) /\ forall la, 0 < la ->
  (RtoC (mh_moment s / (4 * PI) * vz (mh_orient s) * la) * ground 1 s la)%C <> RtoC 0 /\
  (RtoC (mh_moment s / (4 * PI) * (vy (mh_orient s) * 1 - vx (mh_orient s) * 0)) * ground 1 s la)%C <> RtoC 0.
Proof. exact half_witness. Qed.
Print Assumptions C117_vertical_component.
Print Assumptions C117_transverse_component.
Print Assumptions C117_horizontal_components_add_up.
Print Assumptions C117_radial_component.
Print Assumptions C117_vertical_component_of_a_horizontal_dipole.
