(** Vocabulary of the statements about geoana/em/fdem (besides Cplx.v: [is_ccurl], [is_cdiv]). *)
From Coq Require Import Reals.
From Coquelicot Require Import Coquelicot.
From Verif Require Import Vec3 Cplx.
Open Scope R_scope.

(** a quantity, as a function of the permittivity, that does not depend on it *)
Definition ignores_permittivity {A} (value : R -> A) : Prop :=
  forall e e', 0 < e -> 0 < e' -> value e = value e'.

(** rotation by the angle [t] about the vertical axis, of a real and of a complex vector *)
Definition rotate_z (t : R) (v : vec3) : vec3 :=
  V3 (cos t * vx v - sin t * vy v) (sin t * vx v + cos t * vy v) (vz v).
Definition crotate_z (t : R) (v : cvec) : cvec :=
  CV (RtoC (cos t) * cvx v - RtoC (sin t) * cvy v)%C (RtoC (sin t) * cvx v + RtoC (cos t) * cvy v)%C (cvz v).

(** [p] is not on the vertical line through [q] *)
Definition beside (p q : vec3) : Prop := vx p <> vx q \/ vy p <> vy q.

(** a complex vector all of whose components are smaller than [e] *)
Definition csmall (e : R) (v : cvec) : Prop := Cmod (cvx v) < e /\ Cmod (cvy v) < e /\ Cmod (cvz v) < e.
