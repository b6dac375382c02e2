(** Where a quantity that depends on one positive parameter comes from and where it goes. *)
From Coq Require Import Reals.
From Coquelicot Require Import Coquelicot.
From Verif Require Import Vec3.
Open Scope R_scope.

(** [x -> L] as the parameter decreases to 0, and as it grows without bound *)
Definition starts_at (x : R -> R) (L : R) : Prop := filterlim x (at_right 0) (locally L).
Definition ends_at (x : R -> R) (L : R) : Prop := filterlim x (Rbar_locally p_infty) (locally L).
(** the same for vectors, component by component *)
Definition vstarts_at (h : R -> vec3) (L : vec3) : Prop :=
  starts_at (fun t => vx (h t)) (vx L) /\ starts_at (fun t => vy (h t)) (vy L) /\ starts_at (fun t => vz (h t)) (vz L).
Definition vends_at (h : R -> vec3) (L : vec3) : Prop :=
  ends_at (fun t => vx (h t)) (vx L) /\ ends_at (fun t => vy (h t)) (vy L) /\ ends_at (fun t => vz (h t)) (vz L).
(** the integral over all positive values of the parameter is [L] *)
Definition total (x : R -> R) (L : R) : Prop := is_RInt_gen x (at_right 0) (Rbar_locally p_infty) L.
Definition vtotal (h : R -> vec3) (L : vec3) : Prop :=
  total (fun t => vx (h t)) (vx L) /\ total (fun t => vy (h t)) (vy L) /\ total (fun t => vz (h t)) (vz L).
