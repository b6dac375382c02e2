(** Property C130: the displacement computed by the Okada solver is that of a dislocation in an elastic half-space.
    [dc3d3 alpha B dip al1 al2 aw1 aw2 U1 U2] is the solver on a batch B of surface points (in the fault's frame);
    [is_dislocation] is Volterra's integral over the fault (Spec_Volterra). *)
From Coq Require Import Reals List Lra.
From Coquelicot Require Import Coquelicot.
From Verif Require Import Vec3 Calculus Numpy Model_Oksar Spec_Oksar Spec_Volterra.
From Verif Require Import Proof_Oksar Proof_Oksar3 Proof_Oksar4 Proof_Oksar5 Proof_Oksar6 Proof_Oksar7.
From Verif Require Import Proof_Volterra Proof_Volterra4 Proof_Volterra5.
Import ListNotations.
Open Scope R_scope.

(** C130: the fields of the point loads are in equilibrium, leave the surface free, are made by a unit force in their
    direction and die out with the distance *)
Theorem C130_the_loads_are_unit_point_loads :
  forall lambda mu j, mu <> 0 -> lambda + mu <> 0 ->
  (exists J, in_equilibrium lambda mu (point_load lambda mu j) J) /\
  is_made_by_force lambda mu (point_load lambda mu j) (unit_vec j) /\
  exists K, forall p, vz p <= 0 -> p <> vzero -> vnorm (point_load lambda mu j p) <= K / vnorm p.
Proof.
  intros lambda mu j M LM. split; [exists (jac_load lambda mu j); apply load_equilibrium; assumption|].
  split; [apply load_force; assumption|apply load_decays].
Qed.
(** each returned column, times PI2 / (2 pi) (the code writes 2 pi as 6.283185307179586), is the dislocation's displacement *)
Theorem C130_solver_is_a_dislocation :
  forall lambda mu dip al1 al2 aw1 aw2 U1 U2 sd cd,
  mu <> 0 -> lambda + mu <> 0 -> lambda + 2 * mu <> 0 ->
  dip_sin_cos (dip * pl8) sd cd -> sd < 0 -> al1 <= al2 -> 0 <= aw1 <= aw2 -> U1 <> 0 \/ U2 <> 0 ->
  forall B u, List.length B = 1%nat \/ List.length B = 3%nat -> nothing_rounded sd cd B al1 al2 aw1 aw2 ->
  dc3d3 ((lambda + mu) / (lambda + 2 * mu)) B dip al1 al2 aw1 aw2 U1 U2 = Ok u ->
  exists cols, u = Mat cols /\ List.length cols = 3%nat /\
  forall i, (i < 3)%nat -> forall X Y, nth_error B (if Nat.eqb (List.length B) 1 then 0 else i)%nat = Some (X, Y) -> Y <> 0 ->
  exists x y z, nth_error cols i = Some (x, y, z) /\
    is_dislocation lambda mu sd cd al1 al2 aw1 aw2 U1 U2 (V3 X Y 0)
      (V3 (PI2 / (2 * PI) * x) (PI2 / (2 * PI) * y) (PI2 / (2 * PI) * z)).
Proof.
  intros lambda mu dip al1 al2 aw1 aw2 U1 U2 sd cd M LM L2 D S A [B0 B1] UU B u BL NR E.
  destruct (C91_okada_lemma _ _ _ _ _ _ _ _ _ _ D UU B u BL NR E) as (cols & -> & CL & C).
  exists cols. refine (conj eq_refl (conj CL _)). intros i Hi X Y N Y0. specialize (C i Hi). rewrite N in C. cbn [option_map] in C.
  replace ((1 - (lambda + mu) / (lambda + 2 * mu)) / ((lambda + mu) / (lambda + 2 * mu))) with (mu / (lambda + mu)) in C by (field; auto).
  match type of C with _ = Some ?o => destruct o as [[x y] z] eqn:O end. exists x, y, z. split; [exact C|].
  replace (V3 (PI2 / (2 * PI) * x) (PI2 / (2 * PI) * y) (PI2 / (2 * PI) * z)) with (vec_of (PI2 / (2 * PI)) (x, y, z)) by reflexivity. rewrite <- O.
  apply okada_is_volterra; auto.
  - assert (Q : forall d, sin d * sin d + cos d * cos d = 1) by (intros d; pose proof (sin2_cos2 d) as H; unfold Rsqr in H; exact H).
    destruct D as [(_ & -> & ->)|(_ & -> & [(_ & ->)|(_ & ->)])]; [apply Q|ring|ring].
  - unfold PI2. lra.
Qed.
(** a vertical fault in a solid with lambda = mu, one station off its trace: all hypotheses hold *)
Example C130_witness : exists u, dc3d3 ((1 + 1) / (1 + 2 * 1)) [(6, 1 / 1000)] (-90) (-5) 5 1 10 1 0 = Ok u /\
  dip_sin_cos (-90 * pl8) (-1) 0 /\ nothing_rounded (-1) 0 [(6, 1 / 1000)] (-5) 5 1 10 /\ -1 < 0 /\ 0 <= 1 <= 10 /\ 1 / 1000 <> 0.
Proof.
  destruct (C91_defined_lemma ((1 + 1) / (1 + 2 * 1)) (-90) (-1) 0 (6, 1 / 1000) (-5) 5 1 10 1 0) as [u E]; [exact dip_90|left; lra|exact near_clear|cbn [snd]; lra|lra|lra|lra|].
  exists u. refine (conj E (conj dip_90 (conj near_clear _))). lra.
Qed.
Print Assumptions C130_the_loads_are_unit_point_loads.
Print Assumptions C130_solver_is_a_dislocation.
