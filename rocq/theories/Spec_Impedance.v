(** Vocabulary of the statements about the ratio of electric to magnetic field.  It knows
    nothing about the model. *)
From Coq Require Import Reals.
From Coquelicot Require Import Coquelicot.
From Verif Require Import Vec3 Cplx Spec_Power.
Open Scope R_scope.

(** the cross product of a complex vector and a direction *)
Definition ccross (F : cvec) (n : vec3) : cvec :=
  CV (cvy F * vz n - cvz F * vy n)%C (cvz F * vx n - cvx F * vz n)%C (cvx F * vy n - cvy F * vx n)%C.

(** the intrinsic impedance of a medium at angular frequency [w] with wavenumber [k] *)
Definition intrinsic (w mu : R) (k : C) : C := (RtoC (w * mu) / k)%C.

(** the apparent resistivity of a magnetotelluric sounding: |E|^2 / (w mu |H|^2) *)
Definition apparent_resistivity (w mu : R) (E H : cvec) : R :=
  amplitude E ^ 2 / (w * mu * amplitude H ^ 2).
