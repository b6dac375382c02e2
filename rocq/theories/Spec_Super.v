(** Vocabulary of C111 and C112: integrals over a prism. *)
From Coq Require Import Reals.
From Verif Require Import Vec3 Integral Model_Prism.
Open Scope R_scope.

(** [I] is the integral over the prism [b] of the numbers, vectors, matrices [f q] *)
Definition box_integral (f : vec3 -> R) (b : box) (I : R) : Prop :=
  is_triple_integral (fun x y z => f (V3 x y z)) (vx (b_min b)) (vx (b_max b)) (vy (b_min b)) (vy (b_max b)) (vz (b_min b)) (vz (b_max b)) I.
Definition box_vintegral (f : vec3 -> vec3) (b : box) (I : vec3) : Prop :=
  box_integral (fun q => vx (f q)) b (vx I) /\ box_integral (fun q => vy (f q)) b (vy I) /\ box_integral (fun q => vz (f q)) b (vz I).
Definition box_mintegral (f : vec3 -> mat3) (b : box) (I : mat3) : Prop :=
  box_vintegral (fun q => m0 (f q)) b (m0 I) /\ box_vintegral (fun q => m1 (f q)) b (m1 I) /\ box_vintegral (fun q => m2 (f q)) b (m2 I).
