(** Specification vocabulary for the power carried by time-harmonic fields (time factor
    e^(i omega t)).  It knows nothing about the model. *)
From Coq Require Import Reals.
From Coquelicot Require Import Coquelicot.
From Verif Require Import Vec3 Cplx Spec_Flux.
Open Scope R_scope.

(** the real field at time [t] of the phasor [F] *)
Definition at_time (w t : R) (F : cvec) : vec3 := re_vec (cvscal (cexp (Ci * RtoC (w * t)))%C F).
(** the power flow (Poynting vector) averaged over a period: half the real part of E x H* *)
Definition poynting (E H : cvec) : vec3 :=
  vscal (1 / 2) (vadd (vcross (re_vec E) (re_vec H)) (vcross (im_vec E) (im_vec H))).
(** the length of a complex vector *)
Definition amplitude (F : cvec) : R := sqrt (vnorm2 (re_vec F) + vnorm2 (im_vec F)).
(** the heat produced per volume, averaged over a period *)
Definition heating (sigma : R) (E : cvec) : R := sigma * amplitude E ^ 2 / 2.

(** [I] is the integral of [g] over the sphere of radius [rad] about [c] *)
Definition over_sphere (e1 e2 e3 c : vec3) (rad : R) (g : vec3 -> R) (I : R) : Prop :=
  exists ring : R -> R,
    (forall theta, 0 <= theta <= PI ->
       is_RInt (fun phi => g (vadd c (vscal rad (direction e1 e2 e3 theta phi))) * (rad ^ 2 * sin theta)) 0 (2 * PI) (ring theta)) /\
    is_RInt ring 0 PI I.

(** the point at distance [r] from [c] in the direction [n] *)
Definition away (c n : vec3) (r : R) : vec3 := vadd c (vscal r n).
