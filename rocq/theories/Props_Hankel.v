(** Properties of geoana/em/fdem/layered.py: C106, what the secondary field is made of. *)
From Coq Require Import String Reals Lra Lia List Arith Bool.
From Coquelicot Require Import Coquelicot.
From Verif Require Import Vec3 Cplx Numpy Model_RTE Model_Layered Spec_FDEM Spec_RTE Spec_RTE2 Spec_Layered Spec_Hankel Proof_Layered3 Proof_RTE Props_RTE Proof_Hankel.
Import ListNotations.
Open Scope R_scope.

(** C106: whatever the filter, the component along [e] of the returned field is moment/(4 pi) times the filter's
    value of the integral over the wavenumber of (reflection coefficient) x (e^{-la (z + h)}) x (kernels of J0 and J1) *)
Theorem C106_field_is_the_filtered_spectrum mu_0 flt s xyz field r f k :
  consistent s -> whole flt -> field <> "total"%string -> magnetic_field mu_0 flt s xyz field = Ok r ->
  (f < n_frequency s)%nat -> (k < length xyz)%nat -> beside (nth k xyz vzero) (ly_location s) ->
  let p := nth k xyz vzero in let q := ly_location s in let o := ly_orientation s in
  let refl la := py_rTE mu_0 (nth f (ly_frequency s) 0) la (layer_sigmas s f) (layer_mus s f) (ly_thickness s) in
  exists h, entry r f k = Some h /\ forall e,
    cvdot h e = (RtoC (ly_moment s / (4 * PI)) * filtered flt (horizontally q p)
      (fun la => refl la * RtoC (exp (- la * (vz p + vz q)) * vdot e (kernel0 o (vx p - vx q) (vy p - vy q) la)))
      (fun la => refl la * RtoC (exp (- la * (vz p + vz q)) * vdot e (kernel1 o (vx p - vx q) (vy p - vy q) la))))%C.
Proof. exact (field_lemma mu_0 flt s xyz field r f k). Qed.

(** C106: for every wavenumber the kernels are those of the field of a dipole: the derivative, along the dipole at
    the source and along [e] at the receiver, of the reflected cylindrical wave e^{-la (z + h)} J0(la rho) *)
Theorem C106_kernels_are_derivatives_of_the_reflected_wave la o s p : 0 < la -> beside p s ->
  exists along_dipole : vec3 -> R,
    (forall q, beside q s -> is_derive (fun t => reflected_wave la (vadd s (vscal t o)) q) 0 (along_dipole q)) /\
    (forall e, is_derive (fun t => along_dipole (vadd p (vscal t e))) 0
       (exp (- la * (vz p + vz s)) *
          (vdot e (kernel0 o (vx p - vx s) (vy p - vy s) la) * bessel0 (la * horizontally s p)
         + vdot e (kernel1 o (vx p - vx s) (vy p - vy s) la) * bessel1 (la * horizontally s p)))).
Proof. intros La B. exists (wave_slope la o s). split; [intros q; exact (slope_lemma la o s q La)|intros e; exact (gradient_lemma la o s p e La B)]. Qed.

(** C106: J0 and J1 here are the Bessel functions: J0(0) = 1, J1(0) = 0, J0' = -J1, (x J1)' = x J0 *)
Theorem C106_bessel : bessel0 0 = 1 /\ bessel1 0 = 0 /\ (forall x, is_derive bessel0 x (- bessel1 x)) /\
  (forall x, x <> 0 -> is_derive (fun x => x * bessel1 x) x (x * bessel0 x)).
Proof. exact bessel_lemma. Qed.

(** C106: the reflection coefficients are those of the boundary-value problem of C93, whenever it is well posed *)
Theorem C106_spectrum_of_the_ground mu_0 flt s xyz field r f k (refl : R -> C) :
  consistent s -> whole flt -> field <> "total"%string -> magnetic_field mu_0 flt s xyz field = Ok r ->
  (f < n_frequency s)%nat -> (k < length xyz)%nat -> beside (nth k xyz vzero) (ly_location s) ->
  0 < mu_0 -> 0 < nth f (ly_frequency s) 0 -> List.Forall (fun b => 0 < b) (hf_base flt) ->
  let p := nth k xyz vzero in let q := ly_location s in let o := ly_orientation s in
  (forall la, 0 < la -> ground (nth f (ly_frequency s) 0) la (layer_sigmas s f) (layer_mus s f) (ly_thickness s) /\
     reflects mu_0 (2 * PI * nth f (ly_frequency s) 0) la (layer_sigmas s f) (layer_mus s f) (ly_thickness s) (refl la)) ->
  exists h, entry r f k = Some h /\ forall e,
    cvdot h e = (RtoC (ly_moment s / (4 * PI)) * filtered flt (horizontally q p)
      (fun la => refl la * RtoC (exp (- la * (vz p + vz q)) * vdot e (kernel0 o (vx p - vx q) (vy p - vy q) la)))
      (fun la => refl la * RtoC (exp (- la * (vz p + vz q)) * vdot e (kernel1 o (vx p - vx q) (vy p - vy q) la))))%C.
Proof.
  intros Co W F H L K B M Fr P p q o G.
  destruct (C106_field_is_the_filtered_spectrum mu_0 flt s xyz field r f k Co W F H L K B) as (h & E & V).
  exists h. split; [exact E|]. intros e. rewrite V. f_equal. fold p. fold q. fold o.
  assert (Hp : 0 < horizontally q p) by (apply sqrt_lt_R0, horiz_pos, B).
  apply filtered_ext. intros i I la.
  assert (La : 0 < la).
  { unfold la. apply Rdiv_lt_0_compat; [|exact Hp]. rewrite List.Forall_forall in P. apply P. apply nth_In. exact I. }
  destruct (G la La) as [G1 G2].
  pose proof (proj1 (C93_reflection_coefficient mu_0 (nth f (ly_frequency s) 0) la (layer_sigmas s f) (layer_mus s f) (ly_thickness s) (refl la) M Fr La G1) G2) as R.
  rewrite R. split; reflexivity.
Qed.

(** ** A concrete case: a conductive half-space, two frequencies, one-node filter, one receiver *)
Definition hs : layered := LY [1; 10] [] (P1 [RtoC 1]) (P1 [RtoC 1]) (P1 [RtoC 1]) true (V3 0 0 1) (V3 0 0 1) 1.
Example C106_witness : consistent hs /\ whole (HF [1] [2] [3]) /\ beside (V3 3 4 0) (ly_location hs) /\
  (exists r, magnetic_field 1 (HF [1] [2] [3]) hs [V3 3 4 0] "secondary" = Ok r) /\
  (forall la, 0 < la -> ground 10 la (layer_sigmas hs 1) (layer_mus hs 1) (ly_thickness hs)) /\
  filtered (HF [1] [2] [3]) 5 (fun la => RtoC la) (fun la => RtoC 1) = RtoC (17 / 25).
Proof.
  assert (Co : consistent hs) by (repeat split). split; [assumption|]. split; [split; reflexivity|]. split; [left; cbn; lra|]. split; [|split].
  - destruct (consistent_works 1 (HF [1] [2] [3]) hs [V3 3 4 0] "secondary" Co) as (r & H & _); try discriminate; [|eauto].
    repeat constructor; cbn; lra.
  - intros la La. unfold layer_sigmas, layer_mus, hs, n_layer; cbn. split; [reflexivity|]. split; [|constructor].
    repeat constructor. exists 1. split; [lra|]. split; [reflexivity|]. left. cbn. lra.
  - unfold filtered; cbn. apply C_eq; cbn; field.
Qed.
Print Assumptions C106_field_is_the_filtered_spectrum.
Print Assumptions C106_kernels_are_derivatives_of_the_reflected_wave.
Print Assumptions C106_bessel.
Print Assumptions C106_spectrum_of_the_ground.
