(** Vocabulary of the statements about geoana/em/tdem (besides Calculus.v). *)
From Coq Require Import Reals.
From Coquelicot Require Import Coquelicot.
From Verif Require Import Vec3.
Open Scope R_scope.

(** the vector [d] is the derivative at time [t] of the vector function [F] *)
Definition is_vderive (F : R -> vec3) (t : R) (d : vec3) : Prop :=
  is_derive (fun u => vx (F u)) t (vx d) /\ is_derive (fun u => vy (F u)) t (vy d) /\ is_derive (fun u => vz (F u)) t (vz d).
