(** C84: array evaluations with masks give at each point the value of that point alone. *)
From Coq Require Import String Reals Lra List Bool.
From Coquelicot Require Import Coquelicot.
From Verif Require Import Vec3 Numpy Model_Spatial Model_Prism Model_Static Model_Gravity Model_Batch Spec_Batch Proof_Batch.
Import ListNotations.
Open Scope R_scope.

(** gravity.Sphere: potential, field and gradient *)
Theorem C84_gravity_sphere_batch s :
  pointwise (gs_potential_grid s) /\ pointwise (gs_field_grid s) /\ pointwise (gs_gradient_grid s).
Proof. exact (C84_gravity_lemma s). Qed.

(** ElectrostaticSphere and MagnetostaticSphere: potential, field, current / flux density in every
    mode, and the charge density for every shell thickness *)
Theorem C84_static_sphere_batch eps0 s dr :
  pointwise_fields (sphere_potential s) /\ pointwise_fields (sphere_field s) /\ pointwise_fields (sphere_flux s) /\
  pointwise (fun xyz => charge_density eps0 s xyz dr).
Proof. exact (C84_sphere_lemma eps0 s dr). Qed.

(** MagneticPrism.magnetic_flux_density and the numpy prism kernels *)
Theorem C84_prism_batch mu0 b m :
  pointwise (magnetic_flux_density mu0 b m) /\ pointwise np_prism_f /\ pointwise np_prism_fz /\ pointwise np_prism_fzz /\
  pointwise np_prism_fzx /\ pointwise np_prism_fzy /\ pointwise np_prism_fzzz /\ pointwise np_prism_fxxy /\
  pointwise np_prism_fxxz /\ pointwise np_prism_fxyz.
Proof. exact (C84_prism_lemma mu0 b m). Qed.

(** CircularLoopWholeSpace, in either coordinate system and for an unknown one; the one-point
    routines of Model_Static.v, about which C42-C45 speak, are the array routines on one point *)
Theorem C84_loop_batch s c :
  pointwise (loop_vector_potential_array s c) /\ pointwise (loop_flux_density_array s c) /\ pointwise (loop_field_array s c) /\
  forall p, loop_vector_potential_array s c [p] = rmap (fun v => [v]) (loop_vector_potential s c p) /\
            loop_flux_density_array s c [p] = rmap (fun v => [v]) (loop_flux_density s c p) /\
            loop_field_array s c [p] = rmap (fun v => [v]) (loop_field s c p).
Proof. exact (C84_loop_lemma s c). Qed.

(** a sphere of radius 2 with one point outside and one inside *)
Example C84_gravity_sphere_witness :
  let s := GS 2 1 (V3 0 0 0) in
  exists u v, gs_potential_grid s [V3 3 0 0; V3 1 0 0] = Ok [u; v] /\
    gs_potential_grid s [V3 3 0 0] = Ok [u] /\ gs_potential_grid s [V3 1 0 0] = Ok [v].
Proof.
  cbv zeta. destruct (C84_gravity_sphere_batch (GS 2 1 (V3 0 0 0))) as [H _].
  specialize (H [V3 3 0 0; V3 1 0 0] ltac:(discriminate)).
  rewrite Proof_Gravity.gs_potential_grid_pt in H |- *. cbn [map] in H |- *.
  inversion H as [|? ? ? ? A B]; subst. inversion B as [|? ? ? ? C D]; subst.
  do 2 eexists. split; [reflexivity|]. split; [exact A|exact C].
Qed.
(** points on the axis of a loop use the series, the others the elliptic integrals *)
Example C84_loop_witness : small_rho 1 0 5 = true /\ small_rho 1 2 5 = false /\
  exists e, loop_vector_potential_array (CL 1 1 (V3 0 0 1) (V3 0 0 0) 1) "polar" [V3 1 0 0; V3 2 0 0] = Raise e.
Proof.
  split; [apply Rltb_true; lra|]. split; [apply Rltb_false; lra|]. eexists. reflexivity.
Qed.
Print Assumptions C84_gravity_sphere_batch.
Print Assumptions C84_static_sphere_batch.
Print Assumptions C84_prism_batch.
Print Assumptions C84_loop_batch.
