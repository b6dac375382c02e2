(** Fourier transform over the times after switch-off. *)
From Coq Require Import Reals.
From Coquelicot Require Import Coquelicot.
From Verif Require Import Vec3 Cplx.
Open Scope R_scope.

(** improper integral over 0 < t < infinity of a complex function (it need not converge absolutely) *)
Definition is_cint (F : R -> C) (L : C) : Prop :=
  is_RInt_gen (fun t => Re (F t)) (at_right 0) (Rbar_locally p_infty) (Re L) /\
  is_RInt_gen (fun t => Im (F t)) (at_right 0) (Rbar_locally p_infty) (Im L).

(** H is the integral of h(t) exp(-i w t), w = 2 pi f: the answer at frequency f of a system whose answer to an impulse is h *)
Definition is_fourier (h : R -> R) (f : R) (H : C) : Prop :=
  is_cint (fun t => RtoC (h t) * cexp (- Ci * RtoC (2 * PI * f * t)))%C H.

(** H is the answer at frequency f of a system that answers h(t) when a steady source is switched off at t = 0:
    the impulse response is then -dh/dt *)
Definition is_step_off (h : R -> R) (f : R) (H : C) : Prop :=
  (forall t, 0 < t -> ex_derive h t) /\ is_fourier (fun t => - Derive h t) f H.

(** component by component *)
Definition is_vfourier (h : R -> vec3) (f : R) (H : cvec) : Prop :=
  is_fourier (fun t => vx (h t)) f (cvx H) /\ is_fourier (fun t => vy (h t)) f (cvy H) /\ is_fourier (fun t => vz (h t)) f (cvz H).
Definition is_vstep_off (h : R -> vec3) (f : R) (H : cvec) : Prop :=
  is_step_off (fun t => vx (h t)) f (cvx H) /\ is_step_off (fun t => vy (h t)) f (cvy H) /\ is_step_off (fun t => vz (h t)) f (cvz H).
